(** The order of units. *)
From Coq Require Import String List NArith Bool Arith Lia Permutation Relation_Operators Operators_Properties.
From Verif Require Import Runes UnicodeFacts Token LexShape Ext ExtSpec ExtMain Ast Heap MapSpec Prog Units UnitSpec.
Import ListNotations.
Local Open Scope list_scope.

Section WithUnicode.
Context {U : Unicode} {UOK : UnicodeOk U}.

(** ** Lists *)
Lemma add_all_nodup l m : NoDup m -> NoDup (ss_add_all l m).
Proof. revert m. induction l as [|x l IH]; intros m N; [exact N|]. cbn [ss_add_all]. now apply IH, ss_add_nodup. Qed.
Lemma add_all_in l m x : In x (ss_add_all l m) <-> In x l \/ In x m.
Proof.
  revert m. induction l as [|y l IH]; intros m; cbn [ss_add_all]; [cbn; tauto|].
  rewrite IH, ss_add_iff. cbn. intuition auto.
Qed.
Lemma before_app_r {A} (l l' : list A) a b : before l a b -> before (l' ++ l) a b.
Proof. intros (l1 & l2 & l3 & ->). exists (l' ++ l1), l2, l3. now rewrite app_assoc. Qed.
Lemma before_intro {A} (l1 l2 : list A) a b : In a l1 -> In b l2 -> before (l1 ++ l2) a b.
Proof.
  intros I J. apply in_split in I as (x1 & x2 & ->). apply in_split in J as (y1 & y2 & ->).
  exists x1, (x2 ++ y1), y2. now rewrite <- !app_assoc.
Qed.
Lemma nodup_split_eq {A} (l1 l2 m1 m2 : list A) a : NoDup (l1 ++ a :: l2) -> l1 ++ a :: l2 = m1 ++ a :: m2 -> l1 = m1.
Proof.
  revert m1. induction l1 as [|x l1 IH]; intros m1 N E; destruct m1 as [|y m1]; cbn in *; auto.
  - injection E as -> ->. inversion N; subst. destruct H1. apply in_or_app. cbn. auto.
  - injection E as -> E. inversion N; subst. destruct H1. apply in_or_app. cbn. auto.
  - injection E as -> E. inversion N; subst. f_equal. eauto.
Qed.
Lemma before_prefix {A} (l1 l2 : list A) a b : NoDup (l1 ++ b :: l2) -> before (l1 ++ b :: l2) a b -> In a l1.
Proof.
  intros N (x1 & x2 & x3 & E). change (x1 ++ a :: x2 ++ b :: x3) with (x1 ++ (a :: x2) ++ b :: x3) in E.
  rewrite app_assoc in E. apply nodup_split_eq in E; auto. subst l1. apply in_or_app. cbn. auto.
Qed.

(** ** A topological sort *)
Definition remove_str (n : gostring) (l : list gostring) : list gostring :=
  filter (fun x => negb (runes_equal n x)) l.
Definition free (edges : list (gostring * gostring)) (rem : list gostring) (n : gostring) : bool :=
  forallb (fun e => negb (runes_equal (snd e) n && str_in (fst e) rem)) edges.
Fixpoint pick_free (fuel : nat) (rem : list gostring) (edges : list (gostring * gostring)) : option (list gostring) :=
  match rem, fuel with
  | [], _ => Some []
  | _, O => None
  | _, S f =>
      match find (free edges rem) rem with
      | None => None
      | Some n => option_map (cons n) (pick_free f (remove_str n rem) edges)
      end
  end.
Definition some_toposort (nodes : list gostring) (edges : list (gostring * gostring)) : option (list gostring) :=
  pick_free (length nodes) nodes edges.

Lemma remove_in n l x : In x (remove_str n l) <-> In x l /\ x <> n.
Proof.
  unfold remove_str. rewrite filter_In, negb_true_iff. destruct (runes_eqb_spec n x) as [->|N]; intuition congruence.
Qed.
Lemma remove_perm n l : NoDup l -> In n l -> Permutation (n :: remove_str n l) l.
Proof.
  intros N I. apply NoDup_Permutation; auto.
  - constructor; [rewrite remove_in; tauto|]. now apply NoDup_filter.
  - intros x. cbn. rewrite remove_in. destruct (runes_eqb_spec n x) as [->|D]; intuition congruence.
Qed.
Lemma free_iff edges rem n : free edges rem n = true <-> forall a, In (a, n) edges -> ~ In a rem.
Proof.
  unfold free. rewrite forallb_forall. split.
  - intros F a I J. specialize (F _ I). cbn in F. apply str_in_spec in J. rewrite J in F.
    destruct (runes_eqb_spec n n); [discriminate|congruence].
  - intros F [a b] I. cbn. destruct (runes_eqb_spec b n) as [->|]; [|reflexivity]. cbn.
    destruct (str_in a rem) eqn:E; [|reflexivity]. apply str_in_spec in E. now destruct (F a I).
Qed.

(** Going back for ever in a finite set is going round. *)
Lemma walk_back edges (rem : list gostring) : (forall n, In n rem -> exists a, In (a, n) edges /\ In a rem) ->
  forall n, In n rem -> forall k, exists l, length l = k /\ incl l rem /\
    (forall l1 a l2 b l3, n :: l = l1 ++ a :: l2 ++ b :: l3 -> clos_trans _ (edge_of edges) b a).
Proof.
  intros P n I k. revert n I. induction k as [|k IH]; intros n I.
  - exists []. split; [reflexivity|]. split; [intros x []|]. intros l1 a l2 b l3 E.
    apply (f_equal (@length _)) in E. rewrite !app_length in E. cbn in E. rewrite app_length in E. cbn in E. lia.
  - destruct (P n I) as (a & E & J). destruct (IH a J) as (l & L & Inc & T).
    exists (a :: l). split; [cbn; congruence|]. split; [intros x [<-|X]; auto|].
    intros l1 x l2 y l3 Eq. destruct l1 as [|z l1]; cbn in Eq.
    + injection Eq as <- Eq. destruct l2 as [|z l2]; cbn in Eq.
      * injection Eq as <- Eq. now apply t_step.
      * injection Eq as <- Eq. eapply t_trans; [|apply t_step; exact E].
        apply (T [] a l2 y l3). cbn. now rewrite Eq.
    + injection Eq as <- Eq. now apply (T l1 x l2 y l3).
Qed.
Lemma not_nodup (l : list gostring) : ~ NoDup l -> exists l1 a l2 l3, l = l1 ++ a :: l2 ++ a :: l3.
Proof.
  induction l as [|x l IH]; intros N; [destruct N; constructor|].
  destruct (in_dec (list_eq_dec N.eq_dec) x l) as [I|I].
  - apply in_split in I as (l2 & l3 & ->). now exists [], x, l2, l3.
  - destruct IH as (l1 & a & l2 & l3 & ->); [intros D; apply N; now constructor|]. now exists (x :: l1), a, l2, l3.
Qed.
Lemma must_go_round edges (rem : list gostring) : rem <> [] ->
  (forall n, In n rem -> exists a, In (a, n) edges /\ In a rem) ->
  exists a, clos_trans _ (edge_of edges) a a.
Proof.
  intros NE P. destruct rem as [|n rem]; [congruence|].
  destruct (walk_back edges (n :: rem) P n (or_introl eq_refl) (S (length rem))) as (l & L & Inc & T).
  destruct (not_nodup (n :: l)) as (l1 & a & l2 & l3 & E).
  - intros N. assert (X : length (n :: l) <= length (n :: rem)).
    { apply NoDup_incl_length; [exact N|]. intros x [<-|X]; [now left|auto]. }
    cbn in X. lia.
  - exists a. now apply (T l1 a l2 a l3).
Qed.

Theorem some_toposort_ok : toposort_ok some_toposort.
Proof.
  intros nodes edges N NE Ends. unfold some_toposort.
  assert (G : forall fuel rem, length rem <= fuel -> NoDup rem ->
    match pick_free fuel rem edges with
    | Some order => Permutation order rem /\ forall a b, In (a, b) edges -> In a rem -> In b rem -> before order a b
    | None => exists a, clos_trans _ (edge_of edges) a a
    end).
  { clear nodes N Ends. induction fuel as [|fuel IH]; intros rem L N.
    - destruct rem; cbn in *; [|lia]. split; [auto|contradiction].
    - destruct rem as [|n0 rem0]; [cbn; split; [auto|contradiction]|]. set (rem := n0 :: rem0) in *.
      cbn [pick_free]. change (match rem with [] => Some [] | _ :: _ => match find (free edges rem) rem with
        | Some n => option_map (cons n) (pick_free fuel (remove_str n rem) edges) | None => None end end)
        with (match find (free edges rem) rem with
        | Some n => option_map (cons n) (pick_free fuel (remove_str n rem) edges) | None => None end).
      destruct (find (free edges rem) rem) as [n|] eqn:F.
      + apply find_some in F as [I F]. pose proof (remove_perm n rem N I) as P.
        specialize (IH (remove_str n rem)). destruct (pick_free fuel (remove_str n rem) edges) as [order|]; cbn.
        * destruct IH as [IP IE].
          { apply Permutation_length in P. cbn [length] in P. lia. }
          { now apply NoDup_filter. }
          split; [rewrite <- P; now constructor|]. intros a b E Ia Ib.
          destruct (runes_eqb_spec b n) as [->|Nb].
          { apply free_iff with (a := a) in F; [contradiction|exact E]. }
          assert (Jb : In b order).
          { eapply Permutation_in; [symmetry; exact IP|]. apply remove_in. auto. }
          destruct (runes_eqb_spec a n) as [->|Na].
          { apply (before_intro [n] order); cbn; auto. }
          apply (before_app_r order [n]). apply IE; auto; apply remove_in; auto.
        * apply IH; [|now apply NoDup_filter]. apply Permutation_length in P. cbn [length] in P. lia.
      + apply (must_go_round edges rem); [discriminate|]. intros n I.
        pose proof (find_none _ _ F n I) as G. 
        destruct (Forall_Exists_dec (fun e : gostring * gostring => ~ (snd e = n /\ In (fst e) rem))
          ltac:(intros [a b]; cbn; destruct (list_eq_dec N.eq_dec b n); [destruct (in_dec (list_eq_dec N.eq_dec) a rem); [right; intros X; apply X; auto|left; intros [_ X]; contradiction]|left; intros [X _]; contradiction]) edges) as [A|A].
        * assert (X : free edges rem n = true); [|congruence]. apply free_iff. intros a Ia J.
          rewrite Forall_forall in A. apply (A _ Ia). auto.
        * apply Exists_exists in A as ([a b] & Ia & A). cbn [fst snd] in A.
          destruct (list_eq_dec N.eq_dec b n) as [->|D]; [|destruct A; intros [X _]; contradiction].
          destruct (in_dec (list_eq_dec N.eq_dec) a rem) as [J|J]; [eauto|destruct A; intros [_ X]; contradiction]. }
  specialize (G (length nodes) nodes (le_n _) N). destruct (pick_free (length nodes) nodes edges); auto.
  destruct G as [P B]. split; [exact P|]. intros a b I. destruct (Ends a b I). now apply B.
Qed.

(** ** Units *)
Section Units.
Context {A : Type} (name : A -> gostring) (uses : A -> list gostring).
Notation low u := (to_lower (name u)).

Lemma names_in l x : In x (unit_names name uses l) <->
  exists u, In u l /\ (x = low u \/ exists n, In n (uses u) /\ x = to_lower n).
Proof.
  unfold unit_names, strs_set, new_string_set. rewrite add_all_in, in_flat_map. cbn [In].
  split.
  - intros [(u & I & [E|E])|[]]; exists u; split; auto. right. apply in_map_iff in E as (n & <- & J). eauto.
  - intros (u & I & [E|(n & J & E)]); left; exists u; split; auto. right. apply in_map_iff. eauto.
Qed.
Lemma edges_in l a b : In (a, b) (unit_edges name uses l) <->
  exists u n, In u l /\ In n (uses u) /\ a = to_lower n /\ b = low u.
Proof.
  unfold unit_edges. rewrite in_flat_map. split.
  - intros (u & I & E). apply in_map_iff in E as (n & [= <- <-] & J). eauto 10.
  - intros (u & n & I & J & -> & ->). exists u. split; [exact I|]. apply in_map_iff. eauto.
Qed.
Lemma edges_nodup l : distinct_names (map name l) -> Forall (fun u => distinct_names (uses u)) l ->
  NoDup (unit_edges name uses l).
Proof.
  unfold distinct_names. rewrite map_map. induction l as [|u l IH]; intros N F; [constructor|].
  cbn [unit_edges flat_map]. inversion F as [|? ? Fu Fl]; subst. inversion N as [|? ? Nu Nl]; subst.
  change (NoDup (map (fun r => (to_lower r, low u)) (uses u) ++ unit_edges name uses l)).
  specialize (IH Nl Fl).
  assert (D : forall e, In e (map (fun r => (to_lower r, low u)) (uses u)) -> ~ In e (unit_edges name uses l)).
  { intros [a b] I J. apply in_map_iff in I as (n & [= <- <-] & _). apply edges_in in J as (v & m & I & _ & _ & E).
    apply Nu. rewrite E. apply in_map_iff. eauto. }
  assert (M : NoDup (map (fun r => (to_lower r, low u)) (uses u))).
  { clear - Fu. induction (uses u) as [|n ns IH]; cbn in *; [constructor|]. inversion Fu; subst. constructor; auto.
    intros I. apply H1. apply in_map_iff in I as (m & [= E] & I). rewrite <- E. now apply in_map. }
  revert M D. generalize (map (fun r => (to_lower r, low u)) (uses u)). induction l0 as [|e es IHe]; intros M D; [exact IH|].
  cbn. inversion M; subst. constructor.
  - rewrite in_app_iff. intros [I|I]; [contradiction|]. apply (D e); cbn; auto.
  - apply IHe; auto. intros x I. apply D. now right.
Qed.

Lemma of_name_in l n u : unit_of_name name l n = Some u -> In u l /\ low u = n.
Proof.
  unfold unit_of_name. intros F. apply find_some in F as [I E]. apply in_rev in I.
  apply runes_equal_eq in E. auto.
Qed.
Lemma low_inj l u v : distinct_names (map name l) -> In u l -> In v l -> low u = low v -> u = v.
Proof.
  unfold distinct_names. rewrite map_map. induction l as [|x l IH]; intros N I J E; [contradiction|].
  cbn in N. inversion N; subst. destruct I as [->|I], J as [->|J]; auto.
  - destruct H1. rewrite E. now apply (in_map (fun u => low u)).
  - destruct H1. rewrite <- E. now apply (in_map (fun u => low u)).
Qed.
Lemma of_name_of l u : distinct_names (map name l) -> In u l -> unit_of_name name l (low u) = Some u.
Proof.
  intros N I. destruct (unit_of_name name l (low u)) as [v|] eqn:F.
  - apply of_name_in in F as [J E]. f_equal. eauto using low_inj.
  - unfold unit_of_name in F. eapply find_none in F; [|apply in_rev; rewrite rev_involutive; exact I].
    cbn in F. destruct (runes_eqb_spec (low u) (low u)); congruence.
Qed.

Notation kept l names := (flat_map (fun n => match unit_of_name name l n with Some u => [u] | None => [] end) names).
Lemma kept_in l names u : distinct_names (map name l) -> In u (kept l names) <-> In u l /\ In (low u) names.
Proof.
  intros N. rewrite in_flat_map. split.
  - intros (n & I & J). destruct (unit_of_name name l n) as [v|] eqn:F; [|contradiction]. destruct J as [<-|[]].
    apply of_name_in in F as [K <-]. auto.
  - intros [I J]. exists (low u). rewrite (of_name_of _ _ N I). cbn. auto.
Qed.
Lemma kept_nodup l names : distinct_names (map name l) -> NoDup names -> NoDup (kept l names).
Proof.
  intros N. induction names as [|n names IH]; intros M; [constructor|]. inversion M; subst. cbn [flat_map].
  destruct (unit_of_name name l n) as [u|] eqn:F; cbn [app]; auto. constructor; auto.
  rewrite kept_in by exact N. intros [_ I]. apply of_name_in in F as [_ E]. congruence.
Qed.
Lemma kept_app l n1 n2 : kept l (n1 ++ n2) = kept l n1 ++ kept l n2.
Proof. apply flat_map_app. Qed.

Lemma edge_of_uses l u v : In u l -> In v l -> uses_unit name uses u v -> In (low v, low u) (unit_edges name uses l).
Proof. intros I J (n & K & S). apply edges_in. exists u, n. unfold same_name in S. auto. Qed.
Lemma trans_edges l u v : clos_trans _ (uses_among name uses l) u v ->
  clos_trans _ (edge_of (unit_edges name uses l)) (low v) (low u).
Proof.
  induction 1 as [u v (I & J & E)|u v w _ IH1 _ IH2]; [|eapply t_trans; eauto].
  apply t_step. now apply edge_of_uses.
Qed.
Lemma edges_trans l a b : distinct_names (map name l) -> clos_trans _ (edge_of (unit_edges name uses l)) a b ->
  forall w, In w l -> a = low w -> exists u, In u l /\ b = low u /\ clos_trans _ (uses_among name uses l) u w.
Proof.
  intros N C. apply clos_trans_t1n_iff in C. induction C as [a b E|a b c E _ IH]; intros w Iw ->.
  - apply edges_in in E as (u & n & I & J & En & ->). exists u. split; [exact I|]. split; [reflexivity|].
    apply t_step. split; [exact I|]. split; [exact Iw|]. exists n. unfold same_name. auto.
  - apply edges_in in E as (u & n & I & J & En & ->). destruct (IH u I eq_refl) as (x & Ix & -> & T).
    exists x. split; [exact Ix|]. split; [reflexivity|]. eapply t_trans; [exact T|]. apply t_step.
    split; [exact I|]. split; [exact Iw|]. exists n. unfold same_name. auto.
Qed.
Lemma trans_target l a b : clos_trans _ (edge_of (unit_edges name uses l)) a b -> exists u, In u l /\ b = low u.
Proof.
  intros C. apply clos_trans_tn1_iff in C. destruct C as [b E|b c E _]; apply edges_in in E as (u & n & I & J & _ & ->); eauto.
Qed.
Lemma before_trans_order (l : list gostring) edges : NoDup l -> (forall a b, In (a, b) edges -> before l a b) ->
  forall a b, clos_trans _ (edge_of edges) a b -> before l a b.
Proof.
  intros N B a b C. induction C as [a b E|a b c _ IH1 _ IH2]; [now apply B|].
  destruct IH2 as (l1 & l2 & l3 & ->). apply before_prefix in IH1; [|exact N].
  apply before_intro; [exact IH1|]. cbn. right. apply in_or_app. cbn. auto.
Qed.
Lemma before_irrefl (l : list gostring) a : NoDup l -> ~ before l a a.
Proof.
  intros N (l1 & l2 & l3 & ->). apply NoDup_remove_2 in N. apply N. rewrite !in_app_iff. cbn. auto.
Qed.

End Units.

Theorem units_are_sorted :
  forall (A : Type) (name : A -> gostring) (uses : A -> list gostring) order topo l,
    iterates order -> toposort_ok topo ->
    distinct_names (map name l) -> Forall (fun u => distinct_names (uses u)) l ->
    (~ circular name uses l ->
       exists r, sort_units name uses order topo l = Some r /\ Permutation r l /\
         forall u v, In u l -> In v l -> uses_unit name uses u v -> before r v u) /\
    (circular name uses l -> sort_units name uses order topo l = None).
Proof.
  intros A name uses order topo l It T N F.
  set (nodes := ss_slice order (unit_names name uses l)). set (edges := unit_edges name uses l).
  assert (PN : Permutation (unit_names name uses l) nodes) by apply It.
  assert (Nn : NoDup nodes).
  { eapply Permutation_NoDup; [exact PN|]. unfold unit_names, strs_set, new_string_set. apply add_all_nodup. constructor. }
  assert (In_n : forall x, In x nodes <-> In x (unit_names name uses l)).
  { intros x. split; apply Permutation_in; [symmetry; exact PN|exact PN]. }
  specialize (T nodes edges Nn (edges_nodup name uses l N F)).
  assert (Ends : forall a b, In (a, b) edges -> In a nodes /\ In b nodes).
  { intros a b I. apply edges_in in I as (u & n & I & J & -> & ->). rewrite !In_n, !names_in. eauto 10. }
  specialize (T Ends). unfold sort_units. fold nodes edges.
  destruct (topo nodes edges) as [names|].
  - destruct T as [P B].
    assert (Nnames : NoDup names) by (eapply Permutation_NoDup; [symmetry; exact P|exact Nn]).
    assert (In_names : forall u, In u l -> In (to_lower (name u)) names).
    { intros u I. eapply Permutation_in; [symmetry; exact P|]. apply In_n, names_in. eauto. }
    split.
    + intros _. eexists. split; [reflexivity|]. split.
      * apply NoDup_Permutation.
        -- now apply kept_nodup.
        -- unfold distinct_names in N. rewrite map_map in N. now apply NoDup_map_inv in N.
        -- intros u. rewrite kept_in by exact N. split; [tauto|]. auto.
      * intros u v I J E. pose proof (B _ _ (edge_of_uses name uses l u v I J E)) as (l1 & l2 & l3 & ->).
        change (l1 ++ to_lower (name v) :: l2 ++ to_lower (name u) :: l3)
          with (l1 ++ [to_lower (name v)] ++ l2 ++ to_lower (name u) :: l3).
        rewrite app_assoc, kept_app. apply before_intro; apply kept_in; auto; split; auto.
        -- apply in_or_app. cbn. auto.
        -- apply in_or_app. cbn. auto.
    + intros (u & C). exfalso. apply trans_edges in C.
      apply (before_trans_order names edges Nnames B) in C. now apply before_irrefl in C.
  - split; [|reflexivity]. intros NC. exfalso. destruct T as (a & C).
    destruct (trans_target name uses _ _ _ C) as (w & Iw & ->).
    destruct (edges_trans name uses l _ _ N C w Iw eq_refl) as (u & Iu & E & Tr).
    apply NC. exists w. pose proof (low_inj name l u w N Iu Iw (eq_sym E)) as <-. exact Tr.
Qed.

(** Two units of one name: one of them is not processed, whatever the sorting library does. *)
Theorem units_of_one_name_refuted :
  exists (uses : nat -> list gostring) (name : nat -> gostring),
    forall order topo, iterates order -> toposort_ok topo ->
    exists r, sort_units name uses order topo [0; 1] = Some r /\ ~ In 0 r.
Proof.
  exists (fun _ => []), (fun _ => rs "A"). intros order topo It T. unfold sort_units.
  set (nodes := ss_slice order _). assert (P : Permutation (unit_names (fun _ => rs "A") (fun _ => []) [0; 1]) nodes) by apply It.
  assert (E : unit_names (fun _ : nat => rs "A") (fun _ => []) [0; 1] = [to_lower (rs "A")]).
  { unfold unit_names, strs_set, new_string_set. cbn [flat_map map app ss_add_all]. unfold ss_add.
    replace (ss_include [] (to_lower (rs "A"))) with false by reflexivity.
    assert (I : ss_include [to_lower (rs "A")] (to_lower (rs "A")) = true) by (apply ss_include_iff; cbn; auto).
    now rewrite I. }
  rewrite E in P. apply Permutation_length_1_inv in P. rewrite P. cbn [unit_edges flat_map map app].
  specialize (T [to_lower (rs "A")] [] ltac:(repeat constructor; auto) ltac:(constructor) ltac:(contradiction)).
  destruct (topo _ _) as [names|].
  - destruct T as [T _]. symmetry in T. apply Permutation_length_1_inv in T. subst names.
    eexists. split; [reflexivity|]. cbn [flat_map]. unfold unit_of_name. cbn [rev app find].
    destruct (runes_eqb_spec (to_lower (rs "A")) (to_lower (rs "A"))); [|congruence]. cbn. intros [X|[]]. discriminate.
  - exfalso. destruct T as (a & C). apply clos_trans_t1n_iff in C. now inversion C.
Qed.

End WithUnicode.
