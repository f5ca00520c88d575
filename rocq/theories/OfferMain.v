(** A unit offers what its interface section declares, and nothing else. *)
From Coq Require Import String List NArith Bool Arith Lia.
From Verif Require Import ListUtil Runes Token Tokenizer Ast Ext ExtMain Heap Classes MapSpec MapFacts MapMain Prog Parser Units CaseSpec
  UnicodeFacts TermUnitSpec UnitTextSpec RefUnits UnitBodyFacts OfferSpec OfferFacts OfferParse.
Import ListNotations.
Local Open Scope list_scope.

Section WithUnicode.
Context {U : Unicode}.
Local Open Scope prog_scope.

Definition nm (d : decl) : gostring := i_name (d_ident d).

(** ** What [set_all] puts in a map *)

(** All in the map [m] is of [l]. *)
Definition only_of (h : heap) (m : mapobj) (l : list decl) : Prop :=
  forall k v, mget k m = Some v -> exists q d, v = Some q /\ deref h q = Some d /\ In d l /\ k = to_lower (nm d).
(** A name leads to its first declaration in [l]. *)
Definition leads (h : heap) (m : mapobj) (l : list decl) : Prop :=
  forall n, match first_named l n with
            | Some d => exists q, mget (to_lower n) m = Some (Some q) /\ deref h q = Some d
            | None => mget (to_lower n) m = None
            end.
Lemma only_of_later h h' m l : (forall q d, deref h q = Some d -> deref h' q = Some d) -> only_of h m l -> only_of h' m l.
Proof. intros D O k v E. destruct (O k v E) as (q & d & A & B & C). exists q, d. auto. Qed.
Lemma leads_later h h' m l : (forall q d, deref h q = Some d -> deref h' q = Some d) -> leads h m l -> leads h' m l.
Proof. intros D O n. specialize (O n). destruct (first_named l n) as [d|]; [|exact O]. destruct O as (q & A & B). eauto. Qed.
Lemma only_of_more h m l l' : only_of h m l -> only_of h m (l ++ l').
Proof. intros O k v E. destruct (O k v E) as (q & d & A & B & C & K). exists q, d. repeat split; auto. apply in_or_app. now left. Qed.

Lemma impl_set_only_of a (rl : list (decl * dref)) : forall h m l, nth_error (h_maps h) a = Some m -> only_of h m l ->
  Forall (fun x => deref h (snd x) = Some (fst x)) rl ->
  match impl_set h a (map (fun x => (d_ident (fst x), snd x)) rl) with
  | SOk h' | SErr h' _ => exists m', h' = with_maps (set_nth a m' (h_maps h)) h /\ only_of h m' (l ++ map fst rl)
  | SPanic => True
  end.
Proof.
  induction rl as [|[d q] rl IH]; intros h m l Em O F; cbn [map impl_set fst snd].
  - exists m. rewrite (set_nth_same a m _ Em), app_nil_r. split; [now destruct h|exact O].
  - rewrite Em. inversion F as [|? ? Ed F']. subst. cbn [fst snd] in *.
    destruct (mget (regularize (i_name (d_ident d))) m) as [[old|]|] eqn:Eg; [|exact Logic.I|].
    + destruct (i_loc (d_ident d)); [|exact Logic.I]. destruct (option_map _ _) as [[?|]|]; try exact Logic.I.
      exists m. rewrite (set_nth_same a m _ Em). split; [now destruct h|now apply only_of_more].
    + set (m1 := mput (regularize (i_name (d_ident d))) (Some q) m). set (h1 := with_maps (set_nth a m1 (h_maps h)) h).
      specialize (IH h1 m1 (l ++ [d])). destruct (impl_set h1 a _) as [h'|h' i|]; [| |exact Logic.I].
      all: destruct IH as (m' & -> & O'); [cbn; apply nth_set_nth_eq; eapply nth_lt; eauto| |
        eapply Forall_impl; [|exact F']; intros [? ?]; cbn; unfold h1; now rewrite deref_maps|].
      1,3: intros k v; unfold m1; destruct (list_eq_dec N.eq_dec k (regularize (i_name (d_ident d)))) as [->|Nk];
        [rewrite mget_put_eq; intros [= <-]; exists q, d; unfold h1; rewrite deref_maps; repeat split; auto; apply in_or_app; right; now left
        |rewrite mget_put_neq by exact Nk; intros E; destruct (O k v E) as (q1 & d1 & -> & D & J & K); exists q1, d1; unfold h1; rewrite deref_maps;
         repeat split; auto; apply in_or_app; now left].
      all: exists m'; cbn [h1 h_maps with_maps]; rewrite set_nth_twice; split; [reflexivity|]; rewrite <- app_assoc in O';
        (eapply only_of_later; [|exact O']); unfold h1; intros q1 d1; now rewrite deref_maps.
Qed.
Lemma first_named_app l1 l2 n : first_named (l1 ++ l2) n = match first_named l1 n with Some d => Some d | None => first_named l2 n end.
Proof. induction l1 as [|d l1 IH]; cbn [app first_named]; [reflexivity|]. now destruct (same_nameb _ _). Qed.
Lemma first_named_none l n : (forall d, In d l -> ~ same_name n (nm d)) -> first_named l n = None.
Proof.
  induction l as [|d l IH]; intros N; cbn [first_named]; [reflexivity|].
  destruct (same_nameb_spec n (i_name (d_ident d))) as [S|_]; [exfalso; apply (N d); [now left|exact S]|]. apply IH. intros e J. apply N. now right.
Qed.
Lemma first_named_alike l a b : to_lower a = to_lower b -> first_named l a = first_named l b.
Proof. intros E. induction l as [|d l IH]; cbn [first_named]; [reflexivity|]. unfold same_nameb. now rewrite E, IH. Qed.
(** A name that is new *)
Lemma leads_put h m l d q : leads h m l -> deref h q = Some d -> first_named l (nm d) = None ->
  leads h (mput (regularize (nm d)) (Some q) m) (l ++ [d]).
Proof.
  intros L D N n. rewrite first_named_app. specialize (L n). cbn [first_named]. destruct (same_nameb_spec n (i_name (d_ident d))) as [S|S].
  - rewrite (first_named_alike l n (nm d)) by exact S. rewrite N. exists q. unfold regularize, nm. unfold same_name in S. rewrite S. rewrite mget_put_eq. auto.
  - assert (Ne : to_lower n <> regularize (nm d)) by exact S. destruct (first_named l n) as [e|]; rewrite mget_put_neq by exact Ne; exact L.
Qed.
Lemma impl_set_leads a (rl : list (decl * dref)) : forall h m l, nth_error (h_maps h) a = Some m -> leads h m l ->
  Forall (fun x => deref h (snd x) = Some (fst x)) rl -> new_names l (map fst rl) ->
  exists m', impl_set h a (map (fun x => (d_ident (fst x), snd x)) rl) = SOk (with_maps (set_nth a m' (h_maps h)) h) /\ leads h m' (l ++ map fst rl).
Proof.
  induction rl as [|[d q] rl IH]; intros h m l Em L F [N1 N2]; cbn [map impl_set fst snd].
  - exists m. rewrite (set_nth_same a m _ Em), app_nil_r. split; [now destruct h|exact L].
  - rewrite Em. inversion F as [|? ? Ed F']. subst. cbn [fst snd map] in *. inversion N1 as [|? ? N1a N1b]. subst.
    assert (Fr : first_named l (nm d) = None).
    { apply first_named_none. intros e J S. apply (N2 e d J); [now left|]. symmetry. exact S. }
    pose proof (L (nm d)) as Ld. rewrite Fr in Ld. unfold regularize at 1. unfold nm in Ld. rewrite Ld.
    set (m1 := mput (regularize (i_name (d_ident d))) (Some q) m). set (h1 := with_maps (set_nth a m1 (h_maps h)) h).
    assert (Dh : forall q, deref h1 q = deref h q) by (intros; apply deref_maps).
    destruct (IH h1 m1 (l ++ [d])) as (m' & R & G).
    + cbn. apply nth_set_nth_eq. eapply nth_lt; eauto.
    + eapply leads_later; [intros q1 d1; rewrite Dh; exact (fun x => x)|]. now apply leads_put.
    + eapply Forall_impl; [|exact F']. intros [? ?]. now rewrite Dh.
    + split; [exact N1b|]. intros x y Jx Jy. apply in_app_or in Jx as [Jx|[<-|[]]]; [apply N2; [exact Jx|now right]|].
      intros S. apply N1a. apply in_map_iff. exists (nm y). split; [symmetry; exact S|]. now apply (in_map nm).
    + exists m'. cbn [h1 h_maps with_maps] in R. rewrite set_nth_twice in R. split; [exact R|]. rewrite <- app_assoc in G.
      eapply leads_later; [|exact G]. intros q1 d1. now rewrite Dh.
Qed.
Lemma set_all_only_of a ll : forall h m l h', nth_error (h_maps h) a = Some m -> only_of h m l -> set_all h (DImpl a) ll = Some h' ->
  exists m', nth_error (h_maps h') a = Some m' /\ only_of h' m' (l ++ List.concat ll).
Proof.
  induction ll as [|ds ll IH]; intros h m l h' Em O; cbn [set_all List.concat].
  - intros [= <-]. exists m. rewrite app_nil_r. auto.
  - unfold map_set. pose proof (alloc_list h ds) as El. destruct (alloc_decls h ds) as [h1 rl] eqn:Ea. cbn [snd] in El. subst rl.
    assert (Eh : h1 = with_decls (h_decls h ++ ds) h) by (injection Ea as <- _; reflexivity).
    assert (Ef : map fst (combine ds (map Ptr (seq (length (h_decls h)) (length ds)))) = ds) by (apply combine_fst; now rewrite map_length, seq_length).
    cbn [dset]. pose proof (impl_set_only_of a (combine ds (map Ptr (seq (length (h_decls h)) (length ds)))) h1 m l) as X.
    destruct (impl_set h1 a _) as [h2|h2 i|]; [| |discriminate].
    all: destruct X as (m2 & -> & O2); [rewrite Eh; exact Em|rewrite Eh; eapply only_of_later; [|exact O]; intros q d; now apply deref_more|rewrite Eh; apply alloc_refs|].
    all: rewrite Ef in O2; intros E; destruct (IH (with_maps (set_nth a m2 (h_maps h1)) h1) m2 (l ++ ds) h') as (m' & E' & O');
      [cbn; apply nth_set_nth_eq; rewrite Eh; cbn; eapply nth_lt; eauto
      |eapply only_of_later; [|exact O2]; intros q d; now rewrite deref_maps
      |exact E
      |exists m'; split; [exact E'|now rewrite app_assoc]].
Qed.
Lemma set_all_leads a ll : forall h m l l0 h', nth_error (h_maps h) a = Some m -> leads h m l -> l = List.concat l0 ->
  clear_groups (l0 ++ ll) -> set_all h (DImpl a) ll = Some h' ->
  exists m', nth_error (h_maps h') a = Some m' /\ leads h' m' (l ++ List.concat ll).
Proof.
  induction ll as [|ds ll IH]; intros h m l l0 h' Em L El0 C; cbn [set_all List.concat].
  - intros [= <-]. exists m. rewrite app_nil_r. auto.
  - unfold map_set. pose proof (alloc_list h ds) as El. destruct (alloc_decls h ds) as [h1 rl] eqn:Ea. cbn [snd] in El.
    assert (Eh : h1 = with_decls (h_decls h ++ ds) h) by (injection Ea as <- _; reflexivity).
    assert (Ef : map fst (combine ds (map Ptr (seq (length (h_decls h)) (length ds)))) = ds) by (apply combine_fst; now rewrite map_length, seq_length).
    assert (Em1 : nth_error (h_maps h1) a = Some m) by (rewrite Eh; exact Em).
    assert (L1 : leads h1 m l) by (rewrite Eh; eapply leads_later; [|exact L]; intros q d; now apply deref_more).
    assert (A1 : Forall (fun x => deref h1 (snd x) = Some (fst x)) (combine ds (map Ptr (seq (length (h_decls h)) (length ds))))) by (rewrite Eh; apply alloc_refs).
    assert (C' : clear_groups ((l0 ++ [ds]) ++ ll)) by (rewrite <- app_assoc; exact C).
    assert (Ec : l ++ ds = List.concat (l0 ++ [ds])) by (rewrite concat_app, El0; cbn; now rewrite app_nil_r).
    assert (Go : forall m2 h', leads h1 m2 (l ++ ds) -> set_all (with_maps (set_nth a m2 (h_maps h1)) h1) (DImpl a) ll = Some h' ->
      exists m', nth_error (h_maps h') a = Some m' /\ leads h' m' (l ++ ds ++ List.concat ll)).
    { intros m2 h2 L2 E. destruct (IH (with_maps (set_nth a m2 (h_maps h1)) h1) m2 (l ++ ds) (l0 ++ [ds]) h2) as (m' & E' & O'); auto.
      - cbn. apply nth_set_nth_eq. eapply nth_lt; eauto.
      - exists m'. split; [exact E'|now rewrite app_assoc]. }
    cbn [dset]. subst rl.
    assert (New : new_names l ds -> exists m2, impl_set h1 a (map (fun x => (d_ident (fst x), snd x)) (combine ds (map Ptr (seq (length (h_decls h)) (length ds))))) =
      SOk (with_maps (set_nth a m2 (h_maps h1)) h1) /\ leads h1 m2 (l ++ ds)).
    { intros N. pose proof (impl_set_leads a _ h1 m l Em1 L1 A1) as X. rewrite Ef in X. exact (X N). }
    destruct (Nat.eq_dec (length ds) 1) as [E1|N1].
    + destruct ds as [|d [|? ?]]; try discriminate E1. clear E1.
      destruct (first_named l (nm d)) as [e|] eqn:Fn.
      * pose proof (L1 (nm d)) as X. rewrite Fn in X. destruct X as (q & X & _). cbn [length seq map combine impl_set fst snd]. rewrite Em1.
        unfold regularize, nm in *. rewrite X. destruct (i_loc (d_ident d)); [|discriminate]. destruct (option_map _ _) as [[?|]|]; try discriminate.
        intros E. apply (Go m); [|now rewrite (set_nth_same a m _ Em1); destruct h1].
        intros n. specialize (L1 n). rewrite first_named_app. destruct (first_named l n) as [e'|] eqn:Fe; [exact L1|]. cbn [first_named].
        destruct (same_nameb_spec n (i_name (d_ident d))) as [S|S]; [|exact L1]. rewrite (first_named_alike l n _ S) in Fe. congruence.
      * destruct New as (m2 & -> & L2); [|intros E; eapply Go; eauto].
        split; [cbn; constructor; [intros []|constructor]|]. intros x y Jx [<-|[]] S.
        assert (Z : forall l, In x l -> first_named l (nm d) <> None).
        { clear - S. induction l as [|e l IH]; intros J; [destruct J|]. cbn [first_named]. destruct (same_nameb_spec (nm d) (i_name (d_ident e))) as [_|Ne]; [discriminate|].
          destruct J as [->|J]; [exfalso; apply Ne; symmetry; exact S|auto]. }
        exact (Z l Jx Fn).
    + destruct New as (m2 & -> & L2); [|intros E; eapply Go; eauto]. rewrite El0. now apply (C l0 ds ll).
Qed.

(** ** Units that offer *)

Definition opt_list {A} (l : option (list A)) : list A := match l with Some l => l | None => [] end.
Definition offers (h : heap) (u : nat) : Prop :=
  exists a M i, shape h u = Some (DImpl a, Some i) /\ frozen a M h /\ only_of h M (entries (opt_list (is_decls i))) /\
    (clear_groups (flat_map groups_of (opt_list (is_decls i))) -> leads h M (entries (opt_list (is_decls i)))).
Definition none : nat -> Prop := fun _ => False.
Lemma deref_settled X h h' : settled X h h' -> forall q d, deref h q = Some d -> deref h' q = Some d.
Proof.
  intros S [i|a] d; cbn; [auto|]. destruct (st_decls _ _ _ S) as (l & ->). intros E. rewrite nth_error_app1; [exact E|eapply nth_lt, E].
Qed.
Lemma offers_settled (X : nat -> Prop) h h' u : settled X h h' -> ~ X u -> offers h u -> offers h' u.
Proof.
  intros S N (a & M & i & A & B & C & D). exists a, M, i. rewrite (st_shape _ _ _ S) by exact N. split; [exact A|].
  split; [apply (st_maps _ _ _ S), B|]. split; [eapply only_of_later; [|exact C]|intros K; eapply leads_later; [|exact (D K)]]; eapply deref_settled, S.
Qed.
(** Each unit has no map, or offers. *)
Definition fine (h : heap) : Prop := forall u, shape h u = None \/ offers h u.
Lemma fine_settled h h' : settled none h h' -> fine h -> fine h'.
Proof.
  intros S F u. destruct (F u) as [E|O]; [left|right].
  - rewrite (st_shape _ _ _ S); [exact E|exact (fun x => x)].
  - eapply offers_settled; [exact S|exact (fun x => x)|exact O].
Qed.

(** ** Changes of units *)
Lemma shape_put h u f v : u <> v -> shape (put_unit h u f) v = shape h v.
Proof. intros N. unfold shape, put_unit. destruct (nth_error (h_units h) u) as [o|]; [|reflexivity]. cbn. now rewrite nth_set_miss by congruence. Qed.
Lemma settled_put (X : nat -> Prop) h u f : X u -> (forall o, un_intf o <> None -> un_intf (f o) <> None) -> settled X h (put_unit h u f).
Proof.
  intros Xu K. assert (S : forall v, ~ X v -> shape (put_unit h u f) v = shape h v) by (intros v N; apply shape_put; congruence).
  unfold put_unit in *. destruct (nth_error (h_units h) u) as [o|] eqn:Eo; [|apply settled_refl]. constructor; auto.
  - exists []. cbn. now rewrite app_nil_r.
  - intros v (o' & i & E & I'). unfold has_intf. cbn. destruct (Nat.eq_dec v u) as [->|N].
    + rewrite Eo in E. injection E as <-. erewrite nth_set_hit by exact Eo. exists (f o). specialize (K o).
      destruct (un_intf (f o)) as [j|] eqn:Ej; [eauto|]. exfalso. apply K; congruence.
    + rewrite nth_set_miss by exact N. eauto.
  - cbn. now rewrite set_nth_length.
Qed.
(** A change of neither the map nor the interface section *)
Lemma settled_put_same X h u f : (forall o, un_map (f o) = un_map o /\ un_intf (f o) = un_intf o) -> settled X h (put_unit h u f).
Proof.
  intros K. destruct (settled_put (eq u) h u f eq_refl) as [A B C D E F G].
  { intros o. now rewrite (proj2 (K o)). }
  constructor; auto. intros v _. destruct (Nat.eq_dec u v) as [<-|N]; [|now apply E]. unfold shape, put_unit.
  destruct (nth_error (h_units h) u) as [o|] eqn:Eo; [|now rewrite Eo]. cbn. erewrite nth_set_hit by exact Eo. destruct (K o) as [-> ->]. reflexivity.
Qed.
(** The interface section of a unit without map *)
Lemma settled_put_early X h u f : shape h u = None -> (forall o, un_map (f o) = un_map o) -> (forall o, un_intf o <> None -> un_intf (f o) <> None) -> settled X h (put_unit h u f).
Proof.
  intros N K L. destruct (settled_put (eq u) h u f eq_refl L) as [A B C D E F G].
  constructor; auto. intros v _. destruct (Nat.eq_dec u v) as [<-|Ne]; [|now apply E]. rewrite N. unfold shape, put_unit in *.
  destruct (nth_error (h_units h) u) as [o|] eqn:Eo; [|now rewrite Eo]. cbn. erewrite nth_set_hit by exact Eo. rewrite K. now destruct (un_map o).
Qed.
Lemma lets_change u f : (forall o, un_map (f o) = un_map o /\ un_intf (f o) = un_intf o) -> lets (change_unit u f).
Proof. intros K. apply lets_onheap. intros X c h a h' [= <- <-]. now apply settled_put_same. Qed.
Lemma settled_new_unit X h p i : settled X h (with_units (h_units h ++ [mkUnit p i None None None None DNil]) h).
Proof.
  constructor; auto.
  - exists []. cbn. now rewrite app_nil_r.
  - intros u _. unfold shape. cbn. destruct (lt_eq_lt_dec u (length (h_units h))) as [[L|E]|G].
    + now rewrite nth_error_app1.
    + subst u. rewrite nth_error_app2, Nat.sub_diag by lia. cbn. now rewrite (proj2 (nth_error_None _ _)).
    + rewrite !(proj2 (nth_error_None _ _)); rewrite ?app_length; cbn; auto; lia.
  - intros u (o & j & E & J). exists o, j. cbn. rewrite nth_error_app1; [auto|]. eapply nth_lt, E.
  - cbn. rewrite app_length. lia.
Qed.

(** ** The methods of Units.v *)
Section Methods.
Context (R : recs) (RL : recs_let R).
Hint Resolve lets_ret lets_next lets_Cur lets_failat lets_fail lets_crash lets_nofuel lets_validate lets_cur lets_is lets_nexttok lets_expect lets_expect_next : lu.
Ltac lu := repeat first
  [ solve [auto with lu nocore]
  | match goal with
    | |- lets (Bind _ _) => apply lets_bind; [|intro]
    | |- lets (loop _ _ _) => apply lets_loop; intro
    | |- lets (until_list _ _ _ _) => apply lets_until_list
    | |- lets (match ?x with _ => _ end) => destruct x
    | |- lets (let _ := _ in _) => cbv zeta
    | |- lets (change_unit _ _) => apply lets_change; intros; split; reflexivity
    | |- lets (OnHeap _) => apply lets_pure; intros ? ? ? ?;
        repeat match goal with |- context [match ?x with _ => _ end] => destruct x end; solve [congruence]
    end ].

Lemma u_uses_item : lets parse_uses_item.
Proof.
  unfold parse_uses_item. lu; [apply l_parse_string_factor|]. apply lets_onheap. intros X c h x h' [= <- <-]. now apply settled_same.
Qed.
Lemma u_set_uses l : lets (set_uses l).
Proof.
  induction l as [|a l IH]; cbn [set_uses]; [apply lets_ret|]. apply lets_bind; [|intros _; exact IH]. apply lets_onheap. intros X c h x h'.
  destruct (nth_error (h_uses h) a) as [o|]; [|discriminate]. destruct (ctx_set _ _ _) eqn:E; try discriminate. intros [= <- <-]. eapply settled_set. eauto.
Qed.
Lemma u_uses_next : lets (parse_uses_next R).
Proof. unfold parse_uses_next, parse_uses_clause. lu; [apply u_uses_item|apply u_set_uses]. Qed.

(** If a method returns, then so. *)
Definition yields {A} (p : prog A) (s : pst) (K : A -> pst -> Prop) : Prop := forall a s', run p s = OOk a s' -> K a s'.
Lemma yields_bind {A B} (p : prog A) (k : A -> prog B) s K : yields p s (fun a s1 => yields (k a) s1 K) -> yields (Bind p k) s K.
Proof. intros P b s' E. cbn [run] in E. destruct (run p s) as [a s1| | | |] eqn:Er; try discriminate. exact (P a s1 Er b s' E). Qed.
Lemma yields_lets {A} (p : prog A) s X (K : A -> pst -> Prop) : lets p -> (forall a s', settled X (s_heap s) (s_heap s') -> K a s') -> yields p s K.
Proof. intros L H a s' E. apply H. eapply L, E. Qed.
Lemma yields_heap {A} (f : nat -> heap -> hres A) s (K : A -> pst -> Prop) :
  (forall a h, f (s_ctx s) (s_heap s) = HOk a h -> K a (with_heap h s)) -> yields (OnHeap f) s K.
Proof. intros H a s' E. cbn [run] in E. destruct (f (s_ctx s) (s_heap s)) as [x h| | |] eqn:F; try discriminate. injection E as <- <-. now apply H. Qed.
Lemma yields_ret {A} (a : A) s (K : A -> pst -> Prop) : K a s -> yields (Ret a) s K.
Proof. intros H b s' [= <- <-]. exact H. Qed.


Lemma u_unit_ident uc s : yields (parse_unit_ident uc) s (fun u s' => settled none (s_heap s) (s_heap s') /\ shape (s_heap s') u = None /\ nth_error (h_units (s_heap s')) u <> None).
Proof.
  unfold parse_unit_ident.
  apply yields_bind, (yields_lets _ _ none); [apply lets_expect|]. intros t s1 S1.
  apply yields_bind, (yields_lets _ _ none); [apply lets_expect_next|]. intros t2 s2 S2.
  apply yields_bind, (yields_lets _ _ none); [lu|]. intros path s3 S3.
  apply yields_bind, yields_heap. intros u h [= <- <-].
  set (s4 := with_heap _ s3). assert (S4 : settled none (s_heap s3) (s_heap s4)) by apply settled_new_unit.
  assert (P4 : nth_error (h_units (s_heap s4)) (length (h_units (s_heap s3))) <> None).
  { cbn. rewrite nth_error_app2, Nat.sub_diag by lia. discriminate. }
  assert (Sh : shape (s_heap s4) (length (h_units (s_heap s3))) = None).
  { rewrite (st_shape _ _ _ S4) by exact (fun x => x). unfold shape. now rewrite (proj2 (nth_error_None _ _)). }
  clearbody s4. set (u := length _) in *. clearbody u.
  assert (S : settled none (s_heap s) (s_heap s4)) by (eapply settled_trans; [exact S1|eapply settled_trans; [exact S2|eapply settled_trans; [exact S3|exact S4]]]).
  clear S1 S2 S3 S4.
  intros r s' E.
  assert (L : lets (t1 <- next ;; t2 <- (if p_portability t1 then change_unit u (with_port (Some (value t1))) ;;; next else Ret t1) ;;
    (if sym ";" t2 then Next ;;; Ret tt else Ret tt) ;;; Ret u)) by lu.
  assert (r = u) as ->.
  { clear - E. cbn [run] in E. repeat match type of E with
    | match ?x with _ => _ end = _ => destruct x eqn:?; try discriminate
    end; now injection E. }
  pose proof (L none _ _ _ E) as S5. split; [eapply settled_trans; eauto|]. split; [rewrite (st_shape _ _ _ S5); auto|].
  apply nth_error_Some. apply nth_error_Some in P4. pose proof (st_count _ _ _ S5). lia.
Qed.

Lemma u_intf_uses u s : shape (s_heap s) u = None -> nth_error (h_units (s_heap s)) u <> None ->
  yields (parse_unit_intf_uses R u) s (fun _ s' => settled none (s_heap s) (s_heap s') /\ shape (s_heap s') u = None /\ has_intf (s_heap s') u).
Proof.
  intros Sh N. unfold parse_unit_intf_uses.
  apply yields_bind, (yields_lets _ _ none); [apply lets_expect|]. intros t s1 S1.
  apply yields_bind, (yields_lets _ _ none); [apply lets_nexttok|]. intros t2 s2 S2.
  apply yields_bind, (yields_lets _ _ none); [lu; apply u_uses_next|]. intros l s3 S3.
  apply yields_heap. intros x h [= _ <-]. cbn [with_heap s_heap].
  assert (S : settled none (s_heap s) (s_heap s3)) by (eapply settled_trans; [exact S1|eapply settled_trans; [exact S2|exact S3]]).
  assert (Sh3 : shape (s_heap s3) u = None) by (rewrite (st_shape _ _ _ S); auto).
  assert (S4 : settled none (s_heap s3) (put_unit (s_heap s3) u (with_intf (Some (mkIntf l None))))) by (apply settled_put_early; [exact Sh3|reflexivity|discriminate]).
  split; [eapply settled_trans; eauto|]. split; [rewrite (st_shape _ _ _ S4); auto|].
  assert (P : nth_error (h_units (s_heap s3)) u <> None) by (apply nth_error_Some; apply nth_error_Some in N; pose proof (st_count _ _ _ S); lia).
  unfold has_intf, put_unit. destruct (nth_error (h_units (s_heap s3)) u) as [o|] eqn:Eo; [|congruence]. cbn.
  exists (with_intf (Some (mkIntf l None)) o), (mkIntf l None). split; [eapply nth_set_hit, Eo|reflexivity].
Qed.
Lemma u_ident_and_intf_uses uc s : yields (parse_ident_and_intf_uses R uc) s
  (fun u s' => settled none (s_heap s) (s_heap s') /\ shape (s_heap s') u = None /\ has_intf (s_heap s') u).
Proof.
  unfold parse_ident_and_intf_uses. apply yields_bind. intros u s1 E1. destruct (u_unit_ident _ _ _ _ E1) as (S1 & Sh1 & N1).
  apply yields_bind. intros x s2 E2. destruct (u_intf_uses _ _ Sh1 N1 _ _ E2) as (S2 & Sh2 & H2). apply yields_ret.
  split; [eapply settled_trans; eauto|auto].
Qed.
Lemma u_intf_decls_step l : lets (intf_decls_step R l).
Proof.
  unfold intf_decls_step. lu; first [now apply l_parse_type_section|now apply l_parse_var_section|now apply l_parse_threadvar_section
    |now apply l_parse_const_section|now apply l_parse_exported_heading].
Qed.
Lemma groups_nodes l : flat_map intf_decl_nodes l = flat_map groups_of l.
Proof.
  induction l as [|d l IH]; [reflexivity|]. cbn [flat_map]. rewrite IH. f_equal. destruct d as [l1|l1|l1|l1|[? ? ? ?] ? ?]; cbn; rewrite ?map_map; reflexivity.
Qed.
Lemma opt_nonempty {A} (l : list A) : opt_list (nonempty l) = l.
Proof. now destruct l. Qed.
Lemma u_intf_body u s : rooted (s_heap s) -> has_intf (s_heap s) u ->
  yields (parse_unit_intf_body R u) s (fun _ s' => settled (eq u) (s_heap s) (s_heap s') /\ offers (s_heap s') u).
Proof.
  intros Ro H. unfold parse_unit_intf_body. apply yields_bind, (yields_lets _ _ (eq u)); [apply lets_loop; intro; apply u_intf_decls_step|]. intros l s1 S1.
  apply yields_heap. intros x h. destruct (st_intf _ _ _ S1 u H) as (o & i & Eo & Ei).
  set (h1 := put_unit (s_heap s1) u _). cbn [new_map]. set (a := length (h_maps h1)). set (h2 := with_maps _ h1).
  destruct (set_all h2 (DImpl a) _) as [h3|] eqn:E3; [|discriminate]. intros [= _ <-]. cbn [with_heap s_heap].
  set (h4 := put_unit h3 u (with_unit_map (DImpl a))).
  assert (A1 : settled (eq u) (s_heap s1) h1).
  { apply settled_put; [reflexivity|]. intros o'. cbn. destruct (un_intf o'); [discriminate|congruence]. }
  assert (A2 : above (length (h_maps h1)) h1 h3).
  { eapply above_trans; [apply (above_new _ h1); lia|]. exact (above_set_all _ a _ (le_n _) _ _ E3). }
  assert (A3 : settled (eq u) h1 h3) by now apply above_settled.
  assert (A4 : settled (eq u) h3 h4) by (apply settled_put; [reflexivity|intros o'; exact (fun x => x)]).
  assert (S : settled (eq u) (s_heap s) h4) by (eapply settled_trans; [exact S1|eapply settled_trans; [exact A1|eapply settled_trans; [exact A3|exact A4]]]).
  split; [exact S|].
  assert (Em : nth_error (h_maps h2) a = Some []) by (cbn; rewrite nth_error_app2, Nat.sub_diag by (unfold a; lia); reflexivity).
  set (o1 := with_intf (option_map (fun s => mkIntf (is_uses s) (nonempty l)) (un_intf o)) o).
  assert (E1 : nth_error (h_units h1) u = Some o1) by (unfold h1, put_unit; rewrite Eo; cbn; eapply nth_set_hit, Eo).
  assert (E4 : nth_error (h_units h4) u = Some (with_unit_map (DImpl a) o1)).
  { unfold h4, put_unit. rewrite (ab_units _ _ _ A2), E1. cbn. erewrite nth_set_hit; [reflexivity|exact E1]. }
  destruct (set_all_only_of a (flat_map intf_decl_nodes l) h2 [] [] h3 Em) as (M & EM & O); [intros k v; discriminate|exact E3|]. cbn [app] in O.
  rewrite entries_nodes in O.
  assert (D4 : forall q d, deref h3 q = Some d -> deref h4 q = Some d) by (eapply deref_settled, A4).
  exists a, M, (mkIntf (is_uses i) (nonempty l)). cbn [is_decls]. rewrite opt_nonempty. split; [|split; [|split]].
  - unfold shape. rewrite E4. cbn. rewrite Ei. reflexivity.
  - assert (F3 : frozen a M h3).
    { split; [exact EM|]. rewrite (ab_ctxs _ _ _ A2). intros o' J T.
      assert (R1 : rooted h1) by (apply (st_rooted _ _ _ A1), (st_rooted _ _ _ S1), Ro). specialize (R1 o' a J T). unfold a in R1. lia. }
    apply (st_maps _ _ _ A4), F3.
  - eapply only_of_later; [exact D4|exact O].
  - intros C. rewrite <- groups_nodes in C. destruct (set_all_leads a (flat_map intf_decl_nodes l) h2 [] [] [] h3 Em) as (M' & EM' & L); auto.
    { intros n. reflexivity. }
    cbn [app] in L. rewrite entries_nodes in L. rewrite EM in EM'. injection EM' as <-. eapply leads_later; [exact D4|exact L].
Qed.

Lemma settled_assign X units us : forall h, settled X h (assign_units_loop h units us) /\ h_maps (assign_units_loop h units us) = h_maps h.
Proof.
  induction us as [|a us IH]; intros h; cbn [assign_units_loop]; [split; [apply settled_refl|reflexivity]|]. cbv zeta.
  destruct (find_name _ _ _) as [u|]; [|apply IH]. destruct (IH (uses_put_unit h a u)) as [A B].
  assert (C : settled X h (uses_put_unit h a u) /\ h_maps (uses_put_unit h a u) = h_maps h).
  { unfold uses_put_unit. destruct (nth_error (h_uses h) a); [|split; [apply settled_refl|reflexivity]]. split; [now apply settled_same|reflexivity]. }
  destruct C as [C D]. split; [eapply settled_trans; eauto|congruence].
Qed.
Lemma assign_settled X h c us h1 : assign_units h c us = Some h1 -> settled X h h1.
Proof. unfold assign_units. destruct (parent_units h c); [|discriminate]. intros [= <-]. apply settled_assign. Qed.
Lemma import_settled X h c us h' : import_unit_decls h c us = Some h' -> settled X h h'.
Proof.
  unfold import_unit_decls. destruct (assign_units h c us) as [h1|] eqn:E; [|discriminate]. apply (assign_settled X) in E. cbv zeta.
  cbn [new_map]. destruct (nth_error _ c) as [o|]; [|discriminate]. intros [= <-]. eapply settled_trans; [exact E|].
  apply (settled_put_new X h1 (fst (new_map h1))); [now apply above_new|]. cbn. intros a [= <-]. rewrite app_length. cbn. lia.
Qed.
Lemma u_process_intf uc u s : rooted (s_heap s) ->
  yields (process_intf_body R uc u) s (fun _ s' => settled (eq u) (s_heap s) (s_heap s') /\ offers (s_heap s') u).
Proof.
  intros Ro. unfold process_intf_body. apply yields_bind, yields_heap. intros x h.
  destruct (unit_intf_uses (s_heap s) u) as [us|] eqn:Eu; [|discriminate]. destruct (nth_error (h_units (s_heap s)) u) as [o|] eqn:Eo; [|discriminate].
  destruct (import_unit_decls _ _ _) as [h1|] eqn:E1; [|discriminate]. destruct (ctx_set _ _ _) as [h2|h2 i|] eqn:E2; try discriminate. intros [= _ <-].
  assert (S : settled (eq u) (s_heap s) h2) by (eapply settled_trans; [eapply import_settled, E1|eapply settled_set; eauto]).
  assert (H : has_intf (s_heap s) u).
  { unfold unit_intf_uses in Eu. rewrite Eo in Eu. destruct (un_intf o) as [i|] eqn:Ei; [|discriminate]. exists o, i. auto. }
  intros y s' E. destruct (u_intf_body u (with_heap h2 s)) with (a := y) (s' := s') as [S' O]; auto.
  - apply (st_rooted _ _ _ S), Ro.
  - apply (st_intf _ _ _ S), H.
  - split; [eapply settled_trans; [exact S|exact S']|exact O].
Qed.

(** The implementation section *)
Lemma u_impl_uses uc u : lets (parse_impl_uses R uc u).
Proof.
  unfold parse_impl_uses. lu; [|apply u_uses_next]. apply lets_onheap. intros X c h x h'.
  destruct (ctx_stack h uc) as [[h1 m]|] eqn:E; [|discriminate]. intros [= <- <-]. eapply settled_stack, E.
Qed.
Lemma u_impl_body u : lets (parse_impl_body R u).
Proof. unfold parse_impl_body. lu; [now apply l_parse_decl_sections|now apply l_parse_exports_stmts]. Qed.
Lemma u_unit_end u : lets (parse_unit_end R u).
Proof. unfold parse_unit_end, parse_init_section. lu; now apply l_parse_stmt_list. Qed.
Lemma settled_impl uc u s r : process_impl_and_init R uc u s = OOk tt r -> settled none (s_heap s) (s_heap r).
Proof.
  unfold process_impl_and_init. destruct (run _ s) as [m s1| | | |] eqn:E1; try discriminate.
  destruct (run (parse_impl_body R u ;;; _) s1) as [x s2| | | |] eqn:E2; try discriminate. intros [= <-].
  assert (L2 : lets (parse_impl_body R u ;;; parse_unit_end R u)) by (apply lets_bind; [apply u_impl_body|intros _; apply u_unit_end]).
  revert m s1 E1 E2. change (yields (l <- parse_impl_uses R uc u ;; impl_scope uc u l) s (fun m s1 => run (parse_impl_body R u ;;; parse_unit_end R u) s1 = OOk x s2 ->
    settled none (s_heap s) (s_heap (with_heap (put_unit (s_heap s2) u (with_unit_map m)) s2)))).
  apply yields_bind, (yields_lets _ _ none); [apply u_impl_uses|]. intros us s0 S0. apply yields_heap. intros m h.
  destruct (assign_units (s_heap s0) uc us) as [h1|] eqn:Ea; [|discriminate]. cbv zeta.
  destruct (nth_error (h_ctxs h1) uc) as [co|] eqn:Ec; [|discriminate]. destruct (nth_error (h_units h1) u) as [uo|] eqn:Eu; [|discriminate].
  cbn [new_map]. set (h2 := with_maps _ h1). set (k := length (h_maps h1)). set (h3 := put_unit h2 u _). set (h4 := ctx_put_map h3 uc _).
  intros [= <- <-] E2. cbn [with_heap s_heap].
  assert (S1 : settled none (s_heap s) h1) by (eapply settled_trans; [exact S0|eapply assign_settled, Ea]).
  pose proof (L2 none _ _ _ E2) as S5. cbn [with_heap s_heap] in S5. set (h5 := s_heap s2) in *.
  assert (S13 : settled (eq u) h1 h3).
  { eapply settled_trans; [apply above_settled, (above_new _ h1); lia|]. apply settled_put; [reflexivity|intros o'; exact (fun x => x)]. }
  assert (E3 : nth_error (h_units h3) u = Some (with_unit_map (DComposite [DImpl k; un_map uo]) uo)).
  { unfold h3, put_unit. cbn [h_units with_maps h2]. rewrite Eu. cbn. eapply nth_set_hit, Eu. }
  assert (E4 : h_units h4 = h_units h3) by (unfold h4, ctx_put_map; destruct (nth_error (h_ctxs h3) uc); reflexivity).
  assert (M4 : h_maps h4 = h_maps h3 /\ h_decls h4 = h_decls h3) by (unfold h4, ctx_put_map; destruct (nth_error (h_ctxs h3) uc); split; reflexivity).
  assert (S14 : settled (eq u) h1 h4).
  { assert (Z : settled none h1 (ctx_put_map h2 uc (DComposite ([DImpl k; cx_map co] ++ maps_reverse (units_maps h3 (compact (uses_units h1 us))))))).
    { apply (settled_put_new none h1 (fst (new_map h1))); [now apply above_new|]. cbn. intros a [= <-]. unfold k. rewrite app_length. cbn. lia. }
    assert (C4 : h_ctxs h4 = h_ctxs (ctx_put_map h2 uc (DComposite ([DImpl k; cx_map co] ++ maps_reverse (units_maps h3 (compact (uses_units h1 us))))))).
    { unfold h4, ctx_put_map. assert (C3 : h_ctxs h3 = h_ctxs h2) by (unfold h3, put_unit; destruct (nth_error _ u); reflexivity). rewrite C3.
      destruct (nth_error (h_ctxs h2) uc); [reflexivity|exact C3]. }
    assert (M3 : h_maps h3 = h_maps h2) by (unfold h3, put_unit; destruct (nth_error _ u); reflexivity).
    assert (MZ : forall m, h_maps (ctx_put_map h2 uc m) = h_maps h2) by (intros m; unfold ctx_put_map; destruct (nth_error (h_ctxs h2) uc); reflexivity).
    destruct S13 as [B1 B2 B3 B4 B5 B6 B7]. destruct Z as [Z1 Z2 Z3 Z4 Z5 Z6 Z7]. destruct M4 as [M4 D4]. constructor.
    - intros a M F. specialize (Z1 a M F). unfold frozen in *. rewrite MZ in Z1. rewrite C4, M4, M3. exact Z1.
    - intros Ro. specialize (Z2 Ro). unfold rooted in *. rewrite MZ in Z2. rewrite C4, M4, M3. exact Z2.
    - rewrite M4. exact B3.
    - rewrite D4. exact B4.
    - intros v N. rewrite (shape_units h3 h4) by exact E4. now apply B5.
    - intros v H. apply (intf_units h3); [exact E4|]. now apply B6.
    - rewrite E4. exact B7. }
  set (h6 := put_unit h5 u (with_unit_map (un_map uo))).
  assert (S56 : settled (eq u) h5 h6) by (apply settled_put; [reflexivity|intros o'; exact (fun x => x)]).
  assert (S16 : settled (eq u) h1 h6).
  { eapply settled_trans; [exact S14|]. eapply settled_trans; [|exact S56]. eapply settled_more; [|exact S5]. intros v []. }
  eapply settled_trans; [exact S1|]. destruct S16 as [B1 B2 B3 B4 B5 B6 B7]. constructor; auto.
  intros v _. destruct (Nat.eq_dec u v) as [<-|N]; [|now apply B5].
  assert (Sh4 : shape h4 u = Some (DComposite [DImpl k; un_map uo], un_intf uo)).
  { unfold shape. rewrite E4, E3. reflexivity. }
  assert (Sh5 : shape h5 u = Some (DComposite [DImpl k; un_map uo], un_intf uo)) by (rewrite (st_shape _ _ _ S5); auto).
  unfold shape in Sh5. destruct (nth_error (h_units h5) u) as [o5|] eqn:E5; [|discriminate].
  assert (I5 : un_intf o5 = un_intf uo) by (destruct (un_map o5); congruence).
  unfold shape, h6, put_unit. rewrite E5. cbn. erewrite nth_set_hit by exact E5. cbn. rewrite I5, Eu. reflexivity.
Qed.


(** ** Programs *)
Definition well (h : heap) : Prop := rooted h /\ fine h.
Lemma well_settled h h' : settled none h h' -> well h -> well h'.
Proof. intros S [A B]. split; [now apply (st_rooted _ _ _ S)|eapply fine_settled; eauto]. Qed.
Lemma well_offers h h' u : settled (eq u) h h' -> offers h' u -> well h -> well h'.
Proof.
  intros S O [A B]. split; [now apply (st_rooted _ _ _ S)|]. intros v. destruct (Nat.eq_dec u v) as [<-|N]; [now right|].
  destruct (B v) as [E|Ov]; [left; rewrite (st_shape _ _ _ S); auto|right; eapply offers_settled; eauto].
Qed.

Lemma settled_new_context X h h' o : h' = (with_ctxs (h_ctxs (fst (new_map h)) ++ [o]) (fst (new_map h))) ->
  target (cx_map o) = Some (length (h_maps h)) -> settled X h h'.
Proof.
  intros -> T. destruct (above_settled X _ _ (above_new _ h (le_n _))) as [A1 A2 A3 A4 A5 A6 A7]. constructor; auto.
  - intros a M F. destruct (A1 a M F) as [E K]. split; [exact E|]. cbn. intros o' J. apply in_app_or in J as [J|[<-|[]]]; [now apply K|].
    destruct F as [F _]. apply nth_lt in F. rewrite T. intros [= Z]. lia.
  - intros Ro o' a. cbn. intros J T'. apply in_app_or in J as [J|[<-|[]]]; [now apply (A2 Ro o')|].
    rewrite T in T'. injection T' as <-. rewrite app_length. cbn. lia.
Qed.
Lemma settled_unit_context X h p path : settled X h (fst (new_unit_context h p path)).
Proof. eapply settled_new_context; reflexivity. Qed.
Lemma settled_contexts X sep pc us : forall h, settled X h (snd (unit_contexts sep pc us h)).
Proof.
  induction us as [|a us IH]; intros h; cbn [unit_contexts]; [apply settled_refl|]. cbv zeta. destruct (runes_equal _ _); [apply IH|].
  pose proof (settled_unit_context X h pc match nth_error (h_uses h) a with Some o => effective_path sep o | None => [] end) as S.
  destruct (new_unit_context _ _ _) as [h1 c]. cbn [fst] in S. specialize (IH h1). destruct (unit_contexts sep pc us h1) as [l h2]. cbn [snd] in *.
  eapply settled_trans; eauto.
Qed.
Lemma settled_add_unit X h c u : settled X h (add_unit h c u).
Proof.
  unfold add_unit. destruct (nth_error (h_ctxs h) c) as [[k p m]|] eqn:E; [|apply settled_refl]. destruct k; try apply settled_refl.
  apply settled_ctxs; auto. cbn. intros o J. apply in_set_nth in J as [->|J]; [|auto]. right. eexists. split; [eapply nth_error_In, E|reflexivity].
Qed.
Lemma load_settled files pc cp h p h' : load_unit R files pc cp h = ROk p h' -> settled none h h'.
Proof.
  unfold load_unit. destruct cp as [uc path]. destruct (files path) as [text|]; [|discriminate].
  destruct (run _ _) as [u s| | | |] eqn:E; try discriminate. cbn [on_parser rbind]. intros [= _ <-].
  eapply settled_trans; [|apply settled_add_unit].
  set (s0 := mkPst _ _ _ _ _) in E. change h with (s_heap s0). revert u s E.
  change (yields (Next ;;; parse_ident_and_intf_uses R uc) s0 (fun _ s => settled none (s_heap s0) (s_heap s))).
  apply yields_bind, (yields_lets _ _ none); [apply lets_next|]. intros t s1 S1 u s E. eapply settled_trans; [exact S1|]. now apply (u_ident_and_intf_uses uc s1 u s E).
Qed.
Lemma intf_well p h p' h' : intf_of R p h = ROk p' h' -> well h ->
  well h' /\ offers h' (up_unit p) /\ (forall u, offers h u -> offers h' u) /\ up_unit p' = up_unit p.
Proof.
  unfold intf_of. destruct (run _ _) as [u s| | | |] eqn:E; try discriminate. cbn [on_parser rbind snd]. intros [= <- <-] W.
  destruct (u_process_intf _ _ (up_pst p h) (proj1 W) _ _ E) as [S O]. cbn [up_pst s_heap] in S. split; [eapply well_offers; eauto|].
  split; [exact O|]. split; [|reflexivity]. intros v Ov. destruct (Nat.eq_dec (up_unit p) v) as [<-|N]; [exact O|]. eapply offers_settled; eauto.
Qed.
Lemma impl_settled p h p' h' : impl_of R p h = ROk p' h' -> settled none h h'.
Proof.
  unfold impl_of. destruct (process_impl_and_init _ _ _ _) as [[] s| | | |] eqn:E; try discriminate. cbn [on_parser rbind snd]. intros [= <- <-].
  exact (settled_impl _ _ _ _ E).
Qed.
Lemma each_settled {A B} (f : A -> heap -> result B) : (forall a h b h', f a h = ROk b h' -> settled none h h') ->
  forall l h bs h', each_of f l h = ROk bs h' -> settled none h h'.
Proof.
  intros F. induction l as [|a l IH]; intros h bs h'; cbn [each_of]; [intros [= _ <-]; apply settled_refl|].
  destruct (f a h) as [b h1| | | |] eqn:E; try discriminate. cbn [rbind]. destruct (each_of f l h1) as [bs' h2| | | |] eqn:E2; try discriminate. cbn [rbind].
  intros [= _ <-]. eapply settled_trans; eauto.
Qed.
Lemma each_intf l : forall h bs h', each_of (intf_of R) l h = ROk bs h' -> well h ->
  well h' /\ (forall p, In p l -> offers h' (up_unit p)) /\ forall u, offers h u -> offers h' u.
Proof.
  induction l as [|a l IH]; intros h bs h'; cbn [each_of]; [intros [= _ <-] W; split; [exact W|split; [intros p []|auto]]|].
  destruct (intf_of R a h) as [b h1| | | |] eqn:E; try discriminate. cbn [rbind]. destruct (each_of _ l h1) as [bs' h2| | | |] eqn:E2; try discriminate. cbn [rbind].
  intros [= _ <-] W. destruct (intf_well _ _ _ _ E W) as (W1 & O1 & K1 & _). destruct (IH _ _ _ E2 W1) as (W2 & O2 & K2).
  split; [exact W2|]. split; [intros p [<-|J]; auto|auto].
Qed.
Lemma name_units_above n uses um us : n <= um -> forall h h', name_units uses (DImpl um) us h = ROk tt h' -> above n h h'.
Proof.
  intros L. induction us as [|u us IH]; intros h h'; cbn [name_units]; [intros [= <-]; apply above_refl|].
  destruct (find_name _ _ _) as [a|]; [|discriminate]. cbv zeta.
  assert (A1 : above n h (uses_put_unit h a u)).
  { unfold uses_put_unit. destruct (nth_error (h_uses h) a); [|apply above_refl]. constructor; auto. exists []. cbn. now rewrite app_nil_r. }
  destruct (nth_error (h_uses (uses_put_unit h a u)) a) as [o|]; [|discriminate].
  destruct (map_set _ _ _) as [h2|h2 i|] eqn:E; [| |discriminate]; intros E2; (eapply above_trans; [exact A1|]); (eapply above_trans; [|apply IH, E2]);
    (eapply above_set; [exact L|eauto]).
Qed.
Lemma settled_fresh X h h1 h2 : settled X h h1 -> above (length (h_maps h)) h1 h2 -> settled X h h2.
Proof.
  intros [A1 A2 A3 (l1 & A4) A5 A6 A7] [B1 B2 B3 (l2 & B4) B5]. constructor; try lia.
  - intros a M F. destruct (A1 a M F) as [E K]. split; [|now rewrite B3]. rewrite B1; [exact E|]. eapply nth_lt, F.
  - intros Ro o a. rewrite B3. intros J T. specialize (A2 Ro o a J T). lia.
  - exists (l1 ++ l2). now rewrite B4, A4, app_assoc.
  - intros u N. rewrite (shape_units h1) by exact B5. auto.
  - intros u H. apply (intf_units h1); auto.
  - now rewrite B5.
Qed.
Lemma load_units_well files sep order topo pc pa us h h' : load_units R files sep order topo pc pa us h = ROk tt h' -> well h -> well h'.
Proof.
  unfold load_units. pose proof (settled_contexts none sep pc us h) as S0. destruct (unit_contexts sep pc us h) as [cps h1]. cbn [snd] in S0.
  destruct (each_of (load_unit R files pc) cps h1) as [ps h2| | | |] eqn:E1; try discriminate. cbn [rbind].
  apply (each_settled _ (fun a h b h' => load_settled files pc a h b h')) in E1.
  destruct (sort_units _ _ _ _ _) as [sorted|]; [|discriminate].
  destruct (each_of (intf_of R) sorted h2) as [sorted1 h3| | | |] eqn:E2; try discriminate. cbn [rbind].
  destruct (each_of (impl_of R) sorted1 h3) as [sorted2 h4| | | |] eqn:E3; try discriminate. cbn [rbind].
  apply (each_settled _ impl_settled) in E3. cbn [new_map]. set (h5 := with_maps _ h4).
  destruct (name_units _ _ _ h5) as [[] h6| | | |] eqn:E4; try discriminate. cbn [rbind]. cbn [new_map]. set (h7 := with_maps _ h6).
  destruct (nth_error (h_ctxs h7) pc) as [co|]; [|discriminate]. destruct (nth_error (h_progs h7) pa) as [po|]; [|discriminate]. cbv zeta.
  set (h8 := ctx_put_map h7 pc _). set (h9 := with_progs _ h8). intros E5 W.
  assert (W3 : well h3) by (eapply (each_intf _ _ _ _ E2), well_settled, well_settled; eauto).
  assert (A6 : above (length (h_maps h4)) h4 h6).
  { eapply above_trans; [apply (above_new _ h4); lia|]. eapply name_units_above; [|exact E4]. lia. }
  assert (W6 : well h6) by (eapply well_settled; [apply above_settled, A6|]; eapply well_settled; eauto).
  assert (S8 : settled none h6 h8).
  { apply (settled_put_new none h6 (fst (new_map h6))); [now apply above_new|]. cbn. intros a [= <-]. rewrite app_length. cbn. lia. }
  eapply well_settled; [|exact W6].
  assert (S9 : settled none h6 h9) by (eapply settled_trans; [exact S8|now apply settled_same]).
  eapply settled_fresh; [exact S9|].
  destruct (map_set h9 _ _) as [h10|h10 i|] eqn:E6; [| |discriminate]; injection E5 as <-; (eapply above_set; [|eauto]; lia).
Qed.
Lemma program_well files sep order topo path pa pc h : parse_program R files sep order topo path = ROk (pa, pc) h -> well h.
Proof.
  unfold parse_program. destruct (files path) as [text|]; [|discriminate].
  assert (W0 : well (fst (new_program_context heap0 path))).
  { split; [|intros u; left; now destruct u]. intros o a [<-|[]] [= <-]. cbn. lia. }
  destruct (new_program_context heap0 path) as [h0 c0]. cbn [fst] in W0. set (s0 := mkPst _ _ _ _ _).
  destruct (run Next s0) as [x s1| | | |] eqn:E0; try discriminate. apply (lets_next none) in E0.
  unfold parse_program_at. destruct (run (parse_program_head R c0) s1) as [[pa' l] s2| | | |] eqn:E1; try discriminate. cbn [on_parser rbind].
  assert (L1 : lets (parse_program_head R c0)).
  { unfold parse_program_head. lu; [|apply u_uses_next]. apply lets_onheap. intros X c h' x' h'' . destruct (ctx_path h' c0); [|discriminate].
    intros [= <- <-]. now apply settled_same. }
  apply (L1 none) in E1.
  destruct (match l with Some us => load_units R files sep order topo c0 pa' us (s_heap s2) | None => ROk tt (s_heap s2) end) as [[] h2| | | |] eqn:E2; try discriminate.
  cbn [rbind]. destruct (run (parse_program_rest R pa' l) (with_heap h2 s2)) as [r s3| | | |] eqn:E3; try discriminate. cbn [on_parser rbind fst snd].
  assert (L3 : lets (parse_program_rest R pa' l)).
  { unfold parse_program_rest. lu; [now apply l_parse_block|]. apply lets_onheap. intros X c h' x' h''. destruct (nth_error (h_progs h') pa'); [|discriminate].
    intros [= <- <-]. now apply settled_same. }
  apply (L3 none) in E3. intros [= _ _ <-]. eapply well_settled; [exact E3|]. cbn [with_heap s_heap].
  assert (W2 : well (s_heap s2)) by (eapply well_settled; [exact E1|]; eapply well_settled; [exact E0|exact W0]).
  destruct l as [us|]; [eapply load_units_well; eauto|]. now injection E2 as <-.
Qed.
Lemma unit_offers uc u s s' : rooted (s_heap s) -> run (parse_unit R uc) s = OOk u s' -> offers (s_heap s') u.
Proof.
  intros Ro. revert u s'. change (yields (parse_unit R uc) s (fun u s' => offers (s_heap s') u)). unfold parse_unit.
  apply yields_bind. intros u s1 E1. destruct (u_ident_and_intf_uses _ _ _ _ E1) as (S1 & _ & H1).
  apply yields_bind. intros x s2 E2. destruct (u_intf_body u s1 (st_rooted _ _ _ S1 Ro) H1 _ _ E2) as (_ & O2).
  apply yields_bind, (yields_lets _ _ none); [apply u_impl_uses|]. intros y s3 S3.
  apply yields_bind, (yields_lets _ _ none); [apply u_impl_body|]. intros z s4 S4.
  apply yields_bind, (yields_lets _ _ none); [apply u_unit_end|]. intros w s5 S5.
  apply yields_ret. eapply offers_settled; [eapply settled_trans; [exact S3|eapply settled_trans; [exact S4|exact S5]]|exact (fun x => x)|exact O2].
Qed.
Lemma offers_said h u o : nth_error (h_units h) u = Some o -> offers h u -> offers_only h o /\ (clear_groups (groups o) -> offers_first h o).
Proof.
  intros Eo (a & M & i & Sh & F & O & L). unfold shape in Sh. rewrite Eo in Sh.
  assert (Em : un_map o = DImpl a) by (destruct (un_map o); congruence).
  assert (Ei : un_intf o = Some i) by (destruct (un_map o); congruence).
  unfold offers_only, offers_first, interface, groups, interface_decls. rewrite Ei, Em. fold (opt_list (is_decls i)). destruct F as [F _].
  cbn [dget]. unfold impl_get. rewrite F. unfold regularize. split; [split|].
  - intros n p E. destruct (mget (to_lower n) M) as [[q|]|] eqn:G; try discriminate. injection E as ->.
    destruct (O _ _ G) as (q & d & [= <-] & D & J & K). exists d. auto.
  - intros n. destruct (mget (to_lower n) M) as [[q|]|]; discriminate.
  - intros C n. specialize (L C n). unfold opt_list in *. destruct (first_named _ n) as [d|].
    + destruct L as (q & -> & D). eauto.
    + now rewrite L.
Qed.
Lemma fine_said h u o : fine h -> nth_error (h_units h) u = Some o -> un_map o <> DNil -> offers h u.
Proof. intros F E N. destruct (F u) as [X|X]; [|exact X]. unfold shape in X. rewrite E in X. destruct (un_map o); congruence. Qed.


End Methods.

(** ** The theorems *)
Lemma target_addrs m a : target m = Some a -> In a (addrs m).
Proof.
  induction m as [b|p b IH|ms IH| |] using dmap_ind'; cbn; try discriminate; try (intros [= <-]; now left).
  destruct ms as [|m ms]; [discriminate|]. intros E. cbn. apply in_or_app. left. apply Forall_inv in IH. auto.
Qed.
Theorem unit_offers_its_interface :
  forall n text c h u s, Forall (fun o => allocated h (cx_map o)) (h_ctxs h) ->
  parse_text (parse_unit (recs_at n) c) text c h = OOk u s ->
  exists o, nth_error (h_units (s_heap s)) u = Some o /\ offers_only (s_heap s) o /\
    (clear_groups (groups o) -> offers_first (s_heap s) o).
Proof.
  intros n text c h u s A E. unfold parse_text in E. cbn [run] in E. set (s0 := mkPst _ _ _ _ _) in E.
  destruct (next_token s0) as [t s1| | | |] eqn:E0; try discriminate.
  assert (O : offers (s_heap s) u).
  { eapply (unit_offers _ (recs_at_let n)); [|exact E]. change (next_token s0) with (run Next s0) in E0. apply (lets_next none) in E0.
    apply (st_rooted _ _ _ E0). intros o a J T. rewrite Forall_forall in A. specialize (A o J). unfold allocated in A. rewrite Forall_forall in A.
    apply A, target_addrs, T. }
  pose proof O as (a & M & i & Sh & _). unfold shape in Sh. destruct (nth_error (h_units (s_heap s)) u) as [o|] eqn:Eo; [|discriminate].
  exists o. split; [reflexivity|]. eapply offers_said; eauto.
Qed.
Theorem units_of_program_offer_their_interfaces :
  forall n files sep order topo path pa pc h,
  parse_program (recs_at n) files sep order topo path = ROk (pa, pc) h ->
  forall u o, nth_error (h_units h) u = Some o -> un_map o <> DNil ->
  offers_only h o /\ (clear_groups (groups o) -> offers_first h o).
Proof.
  intros n files sep order topo path pa pc h E u o Eo N. eapply offers_said; [exact Eo|].
  eapply fine_said; eauto. exact (proj2 (program_well _ (recs_at_let n) _ _ _ _ _ _ _ _ E)).
Qed.

(** Groups with different names are clear. *)
Fixpoint repeats (l : list gostring) : bool :=
  match l with [] => false | n :: l' => existsb (same_nameb n) l' || repeats l' end.
Fixpoint clear_names (before : list gostring) (l : list (list gostring)) : bool :=
  match l with
  | [] => true
  | g :: l' => ((length g =? 1) || negb (repeats g || existsb (fun n => existsb (same_nameb n) g) before)) && clear_names (before ++ g) l'
  end.
Lemma repeats_sound l : repeats l = false -> NoDup (map to_lower l).
Proof.
  induction l as [|n l IH]; cbn [repeats map]; intros E; [constructor|]. apply orb_false_elim in E as [A B]. constructor; [|auto].
  intros J. apply in_map_iff in J as (m & Em & J). assert (X : existsb (same_nameb n) l = true); [|congruence].
  apply existsb_exists. exists m. split; [exact J|]. destruct (same_nameb_spec n m) as [_|N]; [reflexivity|]. exfalso. apply N. symmetry. exact Em.
Qed.
Lemma clear_names_from l : forall before, clear_names (map nm before) (map (map nm) l) = true ->
  forall l1 g l2, l = l1 ++ g :: l2 -> length g <> 1 -> new_names (before ++ List.concat l1) g.
Proof.
  induction l as [|g0 l IH]; intros before E l1 g l2 El N; [destruct l1; discriminate|]. cbn [map clear_names] in E. apply andb_prop in E as [A B].
  destruct l1 as [|g1 l1]; injection El as -> ->.
  - cbn [List.concat]. rewrite app_nil_r. rewrite map_length in A. destruct (Nat.eqb_spec (length g) 1) as [?|_]; [contradiction|]. cbn [orb] in A.
    apply negb_true_iff, orb_false_elim in A as [A1 A2]. split; [exact (repeats_sound _ A1)|].
    intros d e Jd Je S. assert (X : existsb (fun n => existsb (same_nameb n) (map nm g)) (map nm before) = true); [|congruence].
    apply existsb_exists. exists (nm d). split; [now apply in_map|]. apply existsb_exists. exists (nm e). split; [now apply in_map|].
    destruct (same_nameb_spec (nm d) (nm e)) as [_|Ne]; [reflexivity|]. exfalso. apply Ne, S.
  - cbn [List.concat]. rewrite app_assoc. eapply IH; [|reflexivity|exact N]. rewrite map_app. exact B.
Qed.
Lemma clear_names_sound l : clear_names [] (map (map nm) l) = true -> clear_groups l.
Proof. intros E l1 g l2 El N. exact (clear_names_from l [] E l1 g l2 El N). Qed.
End WithUnicode.

Theorem interface_names_lost_refuted :
  exists (U : Unicode) n text c h u s o d, UnicodeOk U /\ Forall (fun o => allocated h (cx_map o)) (h_ctxs h) /\
  parse_text (parse_unit (recs_at n) c) text c h = OOk u s /\ nth_error (h_units (s_heap s)) u = Some o /\
  In d (interface o) /\ dget (s_heap s) (un_map o) (i_name (d_ident d)) = LNil.
Proof.
  set (hc := lone_unit_context (rs "p.dpr") (rs "a.pas")).
  set (r := @parse_text latin1 _ (@parse_unit latin1 (@recs_at latin1 40) (snd hc)) (rs "unit A; interface procedure b; var b, a: Integer; implementation end.") (snd hc) (fst hc)).
  assert (X : match r with
    | OOk u s => match nth_error (h_units (s_heap s)) u with
                 | Some o => match interface o with [_; _; d] => @dget latin1 (s_heap s) (un_map o) (i_name (d_ident d)) = LNil | _ => False end
                 | None => False end
    | _ => False end) by (vm_compute; reflexivity).
  destruct r as [u s| | | |] eqn:Er; try contradiction. destruct (nth_error (h_units (s_heap s)) u) as [o|] eqn:Eo; [|contradiction].
  destruct (interface o) as [|d1 [|d2 [|d3 [|? ?]]]] eqn:Ei; try contradiction.
  exists latin1, 40, (rs "unit A; interface procedure b; var b, a: Integer; implementation end."), (snd hc), (fst hc), u, s, o, d3.
  split; [exact latin1_ok|]. split; [vm_compute; repeat constructor|]. split; [exact Er|]. split; [exact Eo|].
  rewrite Ei. split; [right; right; now left|exact X].
Qed.
