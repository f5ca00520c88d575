(** What units offer: every unit of a program. *)
From Coq Require Import String List NArith Bool Arith Lia Permutation.
From Verif Require Import ListUtil Runes Token Tokenizer CursorFacts Ast Ext ExtSpec Heap Classes MapFacts MapSpec Prog Parser Units UnitSpec SortMain RunFacts OfferSpec OfferFacts OfferParse OfferMain.
From Verif Require EvolveFacts ProgramLinkFacts IdUnits IdMain IdSpec IdFacts IdParse RefFacts RefParse RefUnits RefMain.
Import ListNotations.
Local Open Scope list_scope.

Section WithUnicode.
Context {U : Unicode} {UOK : UnicodeOk U}.

(** ** An accepted uses clause names no unit twice *)

(** The map that [Set] of the context [c] writes *)
Definition own_map (h : heap) (c : nat) (m : mapobj) : Prop :=
  exists o a, nth_error (h_ctxs h) c = Some o /\ target (cx_map o) = Some a /\ nth_error (h_maps h) a = Some m.
Lemma own_once h c m m' : own_map h c m -> own_map h c m' -> m = m'.
Proof. intros (o & a & E & T & M) (o' & a' & E' & T' & M'). congruence. Qed.
Lemma dset_target : forall m h ds h', dset h m ds = SOk h' -> exists a, target m = Some a /\ impl_set h a ds = SOk h'.
Proof.
  fix IH 1. intros [a|m a|[|m l]| |] h ds h'; cbn [dset target]; try discriminate; [eauto|eauto|apply IH].
Qed.
Lemma set_one h c d h' : ctx_set h c [d] = SOk h' -> exists m v, own_map h c m /\
  mget (to_lower (i_name (d_ident d))) m = None /\ own_map h' c (mput (to_lower (i_name (d_ident d))) v m) /\
  h_uses h' = h_uses h.
Proof.
  unfold ctx_set. destruct (nth_error (h_ctxs h) c) as [o|] eqn:Eo; [|discriminate]. unfold map_set, alloc_decls.
  cbn [map length seq combine]. intros E. apply dset_target in E as (a & T & E). cbn [impl_set] in E.
  change (h_maps (with_decls (h_decls h ++ [d]) h)) with (h_maps h) in E.
  destruct (nth_error (h_maps h) a) as [m|] eqn:M; [|discriminate]. unfold regularize in E.
  destruct (mget (to_lower (i_name (d_ident d))) m) as [[old|]|] eqn:G; [|discriminate|].
  { destruct (i_loc (d_ident d)); [|discriminate]. destruct (option_map _ _) as [[?|]|]; discriminate. }
  injection E as <-. exists m. eexists. split; [exists o, a; auto|]. split; [exact G|]. split; [|reflexivity].
  exists o, a. split; [exact Eo|]. split; [exact T|]. cbn. eapply RefUnits.nth_set_hit, M.
Qed.
Lemma set_uses_distinct l : forall s x s', run (set_uses l) s = OOk x s' ->
  h_uses (s_heap s') = h_uses (s_heap s) /\ distinct_names (map (uses_name (s_heap s)) l) /\
  forall a m, In a l -> own_map (s_heap s) (s_ctx s) m -> mget (to_lower (uses_name (s_heap s) a)) m = None.
Proof.
  induction l as [|a l IH]; intros s x s'; cbn [set_uses].
  - intros [= _ <-]. split; [reflexivity|]. split; [constructor|intros ? ? []].
  - cbn [run]. destruct (nth_error (h_uses (s_heap s)) a) as [o|] eqn:Ea; [|discriminate].
    destruct (ctx_set (s_heap s) (s_ctx s) [mkDecl (u_ident o) (NUses a)]) as [h1|h1 i|] eqn:E; try discriminate.
    apply set_one in E as (m & v & M & G & M1 & Us). cbn [d_ident] in *. intros R. apply IH in R as (U1 & D1 & F1). cbn [with_heap s_heap s_ctx] in *.
    assert (Nm : forall b, uses_name h1 b = uses_name (s_heap s) b) by (intros b; unfold uses_name; now rewrite Us).
    assert (Na : uses_name (s_heap s) a = i_name (u_ident o)) by (unfold uses_name; now rewrite Ea).
    assert (Fl : forall b, In b l -> to_lower (uses_name (s_heap s) b) <> to_lower (uses_name (s_heap s) a) /\ mget (to_lower (uses_name (s_heap s) b)) m = None).
    { intros b J. specialize (F1 b _ J M1). rewrite Nm in F1. rewrite Na. split.
      - intros X. rewrite X, mget_put_eq in F1. discriminate.
      - rewrite mget_put_neq in F1; [exact F1|]. intros X. rewrite X, mget_put_eq in F1. discriminate. }
    split; [congruence|]. split.
    + unfold distinct_names in *. cbn [map]. constructor.
      * rewrite map_map. intros J. apply in_map_iff in J as (b & X & J). now apply (proj1 (Fl b J)).
      * rewrite map_ext with (g := uses_name (s_heap s)) in D1 by exact Nm. exact D1.
    + intros b m' [<-|J] M'; rewrite <- (own_once _ _ _ _ M M'); [now rewrite Na|now apply Fl].
Qed.
Section Level.
Context (R : recs).
Lemma uses_clause_distinct s l s' : run (parse_uses_clause R) s = OOk l s' -> distinct_names (map (uses_name (s_heap s')) l).
Proof.
  unfold parse_uses_clause. cbn [run]. destruct (run (expect _) s) as [t s1| | | |]; try discriminate.
  destruct (next_token s1) as [t2 s2| | | |]; try discriminate. destruct (run (until_list _ _ _ _) s2) as [l' s3| | | |]; try discriminate.
  destruct (run (set_uses l') s3) as [x s4| | | |] eqn:E; try discriminate. intros [= <- <-]. apply set_uses_distinct in E as (Us & D & _).
  rewrite map_ext with (g := uses_name (s_heap s3)); [exact D|]. intros a. unfold uses_name. now rewrite Us.
Qed.
Lemma uses_next_distinct s l s' : run (parse_uses_next R) s = OOk l s' -> distinct_names (map (uses_name (s_heap s')) l).
Proof.
  unfold parse_uses_next. cbn [run]. destruct (run (parse_uses_clause R) s) as [l' s1| | | |] eqn:E; try discriminate.
  destruct (run Next s1) as [t s2| | | |] eqn:E2; change (run Next s1) with (next_token s1) in E2; rewrite E2; try discriminate. intros [= <- <-].
  apply IdUnits.heap_next in E2. rewrite E2. eapply uses_clause_distinct, E.
Qed.
Definition clear_uses (h : heap) (u : nat) : Prop := exists l, unit_intf_uses h u = Some l /\ distinct_names (map (uses_name h) l).
Lemma intf_uses_distinct u s x s' : nth_error (h_units (s_heap s)) u <> None -> run (parse_unit_intf_uses R u) s = OOk x s' -> clear_uses (s_heap s') u.
Proof.
  intros N. revert x s'. change (yields (parse_unit_intf_uses R u) s (fun _ s' => clear_uses (s_heap s') u)). unfold parse_unit_intf_uses.
  apply yields_bind, (yields_lets _ _ none); [apply lets_expect|]. intros t s1 S1.
  apply yields_bind, (yields_lets _ _ none); [apply lets_nexttok|]. intros t2 s2 S2.
  apply yields_bind. intros l s3 E3.
  assert (S3 : settled none (s_heap s2) (s_heap s3)).
  { destruct (kw "USES" t2); [|injection E3 as _ <-; apply settled_refl]. cbn [run] in E3. destruct (run (parse_uses_next R) s2) as [l' s4| | | |] eqn:E; try discriminate.
    injection E3 as _ <-. exact (u_uses_next R none _ _ _ E). }
  assert (D3 : distinct_names (map (uses_name (s_heap s3)) (or_nil l))).
  { destruct (kw "USES" t2); [|injection E3 as <- <-; constructor]. cbn [run] in E3. destruct (run (parse_uses_next R) s2) as [l' s4| | | |] eqn:E; try discriminate.
    injection E3 as <- <-. exact (uses_next_distinct _ _ _ E). }
  apply yields_heap. intros x h [= _ <-]. cbn [with_heap s_heap].
  assert (S : settled none (s_heap s) (s_heap s3)) by (eapply settled_trans; [exact S1|eapply settled_trans; [exact S2|exact S3]]).
  assert (P : nth_error (h_units (s_heap s3)) u <> None) by (apply nth_error_Some; apply nth_error_Some in N; pose proof (st_count _ _ _ S); lia).
  unfold put_unit. destruct (nth_error (h_units (s_heap s3)) u) as [o|] eqn:Eo; [|congruence]. exists (or_nil l). split; [|exact D3].
  unfold unit_intf_uses. cbn. erewrite RefUnits.nth_set_hit by exact Eo. reflexivity.
Qed.
Lemma beginning_distinct uc s u s' : run (parse_ident_and_intf_uses R uc) s = OOk u s' -> clear_uses (s_heap s') u.
Proof.
  revert u s'. change (yields (parse_ident_and_intf_uses R uc) s (fun u s' => clear_uses (s_heap s') u)). unfold parse_ident_and_intf_uses.
  apply yields_bind. intros u s1 E1. destruct (u_unit_ident _ _ _ _ E1) as (_ & _ & N1).
  apply yields_bind. intros x s2 E2. apply yields_ret. eapply intf_uses_distinct; eauto.
Qed.
End Level.

(** ** The passes over the units *)

Section Files.
Hint Resolve lets_ret lets_next lets_Cur lets_failat lets_fail lets_crash lets_nofuel lets_validate lets_cur lets_is lets_nexttok lets_expect lets_expect_next : lu.
Ltac lu := repeat first
  [ solve [auto with lu nocore]
  | match goal with
    | |- lets (Bind _ _) => apply lets_bind; [|intro]
    | |- lets (loop _ _ _) => apply lets_loop; intro
    | |- lets (until_list _ _ _ _) => apply lets_until_list
    | |- lets (match ?x with _ => _ end) => destruct x
    | |- lets (let _ := _ in _) => cbv zeta
    | |- lets (change_unit _ _) => apply lets_change; intros; split; reflexivity
    | |- lets (OnHeap _) => apply lets_pure; intros ? ? ? ?;
        repeat match goal with |- context [match ?x with _ => _ end] => destruct x end; solve [congruence]
    end ].

Context (R : recs) (RL : recs_let R) (RS : IdParse.recs_spelled R) (files : gostring -> option (list rune)).

Lemma clear_uses_kept h h' u : IdUnits.uses_kept h h' -> IdUnits.unit_kept u h h' ->
  (forall o, nth_error (h_units h) u = Some o -> IdUnits.unit_listed h o) -> clear_uses h u -> clear_uses h' u.
Proof.
  intros K Ku L (l & E & D). unfold unit_intf_uses in E. destruct (nth_error (h_units h) u) as [o|] eqn:Eo; [|discriminate].
  destruct (un_intf o) as [i|] eqn:Ei; [|discriminate]. injection E as <-. destruct (Ku o Eo) as (o' & Eo' & T).
  exists (or_nil (is_uses i)). split.
  - unfold unit_intf_uses. rewrite Eo'. replace (un_intf o') with (un_intf o) by (unfold IdUnits.tree_same in T; intuition congruence). now rewrite Ei.
  - rewrite map_ext_in with (g := uses_name h); [exact D|]. intros a J. unfold uses_name.
    destruct (L o eq_refl) as [Lo _]. specialize (Lo _ Ei a J). destruct (nth_error (h_uses h) a) as [x|] eqn:Ex; [|tauto].
    destruct (K a x Ex) as (x' & Ex' & I & _). now rewrite Ex', I.
Qed.
Lemma clear_uses_same h h' u : h_units h' = h_units h -> h_uses h' = h_uses h -> clear_uses h u -> clear_uses h' u.
Proof.
  intros E1 E2 (l & E & D). exists l. split; [unfold unit_intf_uses; now rewrite E1|].
  rewrite map_ext with (g := uses_name h); [exact D|]. intros a. unfold uses_name. now rewrite E2.
Qed.
Lemma load_clear pc cp h p h' : load_unit R files pc cp h = ROk p h' -> clear_uses h' (up_unit p).
Proof.
  unfold load_unit. destruct cp as [uc path]. destruct (files path) as [text|]; [|discriminate].
  destruct (run _ _) as [u s| | | |] eqn:E; cbn [on_parser rbind]; try discriminate. intros [= <- <-]. cbn [up_unit up_of].
  eapply (clear_uses_same (s_heap s)).
  - unfold add_unit. destruct (nth_error (h_ctxs (s_heap s)) pc) as [[[us| |] q m]|]; reflexivity.
  - unfold add_unit. destruct (nth_error (h_ctxs (s_heap s)) pc) as [[[us| |] q m]|]; reflexivity.
  - cbn [run] in E. destruct (next_token _) as [t s1| | | |]; try discriminate. eapply beginning_distinct, E.
Qed.
Lemma load_covers pc : forall cps h ps h', each_of (load_unit R files pc) cps h = ROk ps h' ->
  (forall c q, In (c, q) cps -> IdMain.has_path h c q) -> IdMain.all_fit files h ->
  (forall k, nth_error (h_units h') k <> None -> nth_error (h_units h) k <> None \/ In k (map up_unit ps)) /\
  Forall (fun p => clear_uses h' (up_unit p)) ps.
Proof.
  induction cps as [|[c q] cps IH]; intros h ps h'; cbn [each_of].
  - intros [= <- <-] _ _. split; [auto|constructor].
  - intros E Hp A. destruct (load_unit R files pc (c, q) h) as [p h1| | | |] eqn:E1; cbn [rbind] in E; try discriminate.
    destruct (IdMain.load_one _ _ _ _ _ _ _ _ E1 (Hp _ _ (or_introl eq_refl))) as (N1 & F1 & W1 & P1).
    destruct (each_of _ cps h1) as [ps1 h2| | | |] eqn:E2; cbn [rbind] in E; try discriminate. injection E as <- <-.
    assert (A1 : IdMain.all_fit files h1).
    { eapply IdMain.all_fit_frame; [exact F1|exact A|]. intros k o [= <-] No. eapply IdMain.waits_fitted; [|exact W1|exact No]. now intros ? ? []. }
    assert (Hp1 : forall c0 q0, In (c0, q0) cps -> IdMain.has_path h1 c0 q0) by (intros; apply P1, Hp; now right).
    destruct (IH _ _ _ E2 Hp1 A1) as [C2 D2]. destruct (IdMain.load_all _ _ _ _ _ _ _ E2 Hp1 A1) as (_ & _ & _ & (K & _ & M) & _).
    split.
    + intros k Nk. cbn [map]. destruct (C2 k Nk) as [X|X]; [|right; now right]. destruct (Nat.eq_dec k (up_unit p)) as [->|D]; [right; now left|].
      left. intros Z. apply X, (IdUnits.fr_back _ _ _ F1); [congruence|exact Z].
    + constructor; [|exact D2]. eapply clear_uses_kept; [exact K|apply M; intros []| |eapply load_clear, E1].
      intros o No. destruct W1 as (? & ? & o' & _ & No' & L & _). rewrite No in No'. injection No' as <-. exact L.
Qed.
Lemma step_back f (Q Q' : gostring -> unitobj -> Prop) : IdMain.step files f Q Q' -> (forall path, IdUnits.of_tree (Q path)) ->
  forall l h l' h', Forall (IdMain.waits files Q h) l -> NoDup (map up_unit l) -> each_of f l h = ROk l' h' ->
  forall k, nth_error (h_units h) k = None -> nth_error (h_units h') k = None.
Proof.
  intros St T. induction l as [|p l IH]; intros h l' h' W N; cbn [each_of].
  - now intros [= _ <-].
  - inversion W as [|? ? Wp Wl]; subst. cbn [map] in N. apply NoDup_cons_iff in N as [Np Nl].
    destruct (f p h) as [p1 h1| | | |] eqn:E; cbn [rbind]; try discriminate. destruct (St _ _ _ _ E Wp) as (U1 & F1 & W1).
    destruct (each_of f l h1) as [l1 h2| | | |] eqn:E2; cbn [rbind]; try discriminate. intros [= _ <-] k Nk.
    eapply (IH h1); [|exact Nl|exact E2|].
    + rewrite Forall_forall in Wl |- *. intros q J. eapply IdMain.waits_many; [exact T|apply IdMain.frame_many, F1| |auto].
      intros [X|[]]. apply Np. rewrite X. now apply in_map.
    + apply (IdUnits.fr_back _ _ _ F1); [|exact Nk]. intros [= ->]. destruct Wp as (? & ? & o & _ & No & _). congruence.
Qed.
Lemma load_units_parts sep order topo pc pa us h h' : load_units R files sep order topo pc pa us h = ROk tt h' ->
  exists cps h1 ps h2 sorted sorted1 h3 sorted2 h4, unit_contexts sep pc us h = (cps, h1) /\
  each_of (load_unit R files pc) cps h1 = ROk ps h2 /\ sort_units (up_name h2) (up_uses h2) order topo ps = Some sorted /\
  each_of (intf_of R) sorted h2 = ROk sorted1 h3 /\ each_of (impl_of R) sorted1 h3 = ROk sorted2 h4 /\
  settled none h4 h' /\ h_units h' = h_units h4.
Proof.
  unfold load_units. destruct (unit_contexts sep pc us h) as [cps h1].
  destruct (each_of (load_unit R files pc) cps h1) as [ps h2| | | |] eqn:E1; try discriminate. cbn [rbind].
  destruct (sort_units _ _ _ _ _) as [sorted|] eqn:Es; [|discriminate].
  destruct (each_of (intf_of R) sorted h2) as [sorted1 h3| | | |] eqn:E2; try discriminate. cbn [rbind].
  destruct (each_of (impl_of R) sorted1 h3) as [sorted2 h4| | | |] eqn:E3; try discriminate. cbn [rbind]. cbn [new_map]. set (h5 := with_maps _ h4).
  destruct (name_units _ _ _ h5) as [[] h6| | | |] eqn:E4; try discriminate. cbn [rbind]. cbn [new_map]. set (h7 := with_maps _ h6).
  destruct (nth_error (h_ctxs h7) pc) as [co|]; [|discriminate]. destruct (nth_error (h_progs h7) pa) as [po|]; [|discriminate]. cbv zeta.
  set (h8 := ctx_put_map h7 pc _). set (h9 := with_progs _ h8). intros E5.
  assert (A6 : above (length (h_maps h4)) h4 h6).
  { eapply above_trans; [apply (above_new _ h4); lia|]. eapply name_units_above; [|exact E4]. lia. }
  assert (U9 : h_units h9 = h_units h6).
  { cbn [h9 h_units with_progs]. change (h_units h6) with (h_units h7). unfold h8, ctx_put_map. destruct (nth_error (h_ctxs h7) pc); reflexivity. }
  assert (S8 : settled none h6 h8).
  { apply (settled_put_new none h6 (fst (new_map h6))); [now apply above_new|]. cbn. intros a [= <-]. rewrite app_length. cbn. lia. }
  assert (S9 : settled none h6 h9) by (eapply settled_trans; [exact S8|now apply settled_same]).
  exists cps, h1, ps, h2, sorted, sorted1, h3, sorted2, h4. repeat (split; [reflexivity || assumption|]).
  assert (X : above (length (h_maps h6)) h9 h').
  { destruct (map_set h9 _ _) as [h10|h10 i|] eqn:E6; [| |discriminate]; injection E5 as <-; (eapply above_set; [|eauto]; lia). }
  split.
  - eapply settled_trans; [apply above_settled, A6|]. eapply settled_fresh; [exact S9|exact X].
  - destruct X as [_ _ _ _ X]. destruct A6 as [_ _ _ _ Y]. congruence.
Qed.
Context (RT : RefParse.recs_tied R).
(** The heads of the units stay. *)
Lemma heads_kept sep pc us ns order topo h cps h1 ps h2 sorted sorted1 h3 sorted2 h4 h' : RefFacts.good ns h -> unit_contexts sep pc us h = (cps, h1) ->
  each_of (load_unit R files pc) cps h1 = ROk ps h2 -> sort_units (up_name h2) (up_uses h2) order topo ps = Some sorted ->
  each_of (intf_of R) sorted h2 = ROk sorted1 h3 -> each_of (impl_of R) sorted1 h3 = ROk sorted2 h4 -> h_units h' = h_units h4 -> RefFacts.kept h2 h'.
Proof.
  intros Gd Ec El Es E3 E4 Un. pose proof (RefUnits.unit_contexts_good sep pc us ns h Gd) as [G1 S1]. rewrite Ec in G1, S1. cbn [snd] in G1, S1.
  assert (X : RefUnits.rsound ns h1 (each_of (load_unit R files pc) cps h1) (fun bs ns' h' => Forall (fun b => RefUnits.up_ok b ns' h') bs)).
  { apply (RefUnits.each_of_sound (load_unit R files pc) (fun _ _ _ => True) RefUnits.up_ok); [now intros ?|apply RefUnits.up_ok_stable| |exact G1|].
    - intros cp n0 h0 G0 _. now apply RefUnits.load_unit_sound.
    - clear. induction cps; auto. }
  rewrite El in X. destruct X as (n2 & _ & G2 & Q2).
  assert (Y : RefUnits.rsound n2 h2 (each_of (intf_of R) sorted h2) (fun bs ns' h' => Forall (fun b => RefUnits.up_ok b ns' h') bs)).
  { apply (RefUnits.each_of_sound (intf_of R) RefUnits.up_ok RefUnits.up_ok); [apply RefUnits.up_ok_stable|apply RefUnits.up_ok_stable| |exact G2|].
    - intros. now apply RefUnits.intf_of_sound.
    - apply Forall_forall. intros p J. eapply RefUnits.sort_units_in in J; [|exact Es]. now apply (proj1 (Forall_forall _ _) Q2). }
  rewrite E3 in Y. destruct Y as (n3 & (_ & _ & K3) & G3 & Q3).
  assert (Z : RefUnits.rsound n3 h3 (each_of (impl_of R) sorted1 h3) (fun bs ns' h' => Forall (fun b => RefUnits.up_ok b ns' h') bs)).
  { apply (RefUnits.each_of_sound (impl_of R) RefUnits.up_ok RefUnits.up_ok); [apply RefUnits.up_ok_stable|apply RefUnits.up_ok_stable| |exact G3|exact Q3].
    intros. now apply RefUnits.impl_of_sound. }
  rewrite E4 in Z. destruct Z as (n4 & (_ & _ & K4) & _).
  intros u o No. destruct (K3 u o No) as (o3 & N3 & I3). destruct (K4 u o3 N3) as (o4 & N4 & I4). exists o4. rewrite Un. split; [exact N4|congruence].
Qed.
Lemma load_units_all sep order topo pc pa us ns h h' : iterates order -> toposort_ok topo ->
  (forall k, nth_error (h_units h) k = None) -> RefFacts.good ns h -> well h ->
  load_units R files sep order topo pc pa us h = ROk tt h' ->
  distinct_names (map (fun o => i_name (un_ident o)) (h_units h')) ->
  forall u, nth_error (h_units h') u <> None -> offers h' u.
Proof.
  intros It To Em Gd We E Dn.
  destruct (load_units_parts _ _ _ _ _ _ _ _ E) as (cps & h1 & ps & h2 & sorted & sorted1 & h3 & sorted2 & h4 & Ec & El & Es & E3 & E4 & St & Un). clear E.
  destruct (IdMain.contexts files _ _ _ _ _ _ Ec) as (F1 & _ & Hp).
  assert (Em1 : forall k, nth_error (h_units h1) k = None) by (intros k; apply (IdUnits.fr_back _ _ _ F1); [discriminate|apply Em]).
  assert (A1 : IdMain.all_fit files h1) by (intros k o No; rewrite Em1 in No; discriminate).
  destruct (IdMain.load_all _ _ _ _ _ _ _ El Hp A1) as (W2 & D2 & _ & _ & A2).
  destruct (load_covers _ _ _ _ _ El Hp A1) as [C2 U2].
  pose proof (heads_kept _ _ _ _ _ _ _ _ _ _ _ _ _ _ _ _ _ Gd Ec El Es E3 E4 Un) as K.
  (* the sorted units are all units *)
  assert (Nm : forall p, In p ps -> exists o, nth_error (h_units h') (up_unit p) = Some o /\ up_name h2 p = i_name (un_ident o)).
  { intros p J. rewrite Forall_forall in W2. destruct (W2 p J) as (? & ? & o & _ & No & _). destruct (K _ _ No) as (o' & No' & I).
    exists o'. split; [exact No'|]. unfold up_name, unit_name. now rewrite No, I. }
  assert (Dp : distinct_names (map (up_name h2) ps)).
  { unfold distinct_names. rewrite map_map. apply IdMain.nodup_map_on; [eapply NoDup_map_inv, D2|]. intros p q Jp Jq X.
    apply (IdMain.map_inj_on up_unit ps); auto. destruct (Nm p Jp) as (op & Np & Ip). destruct (Nm q Jq) as (oq & Nq & Iq). rewrite Ip, Iq in X.
    unfold distinct_names in Dn. rewrite map_map, NoDup_nth_error in Dn. apply Dn.
    - rewrite map_length. apply nth_error_Some. congruence.
    - rewrite (map_nth_error _ _ _ Np), (map_nth_error _ _ _ Nq). now f_equal. }
  assert (Du : Forall (fun p => distinct_names (up_uses h2 p)) ps).
  { rewrite Forall_forall in U2 |- *. intros p J. destruct (U2 p J) as (l & X & D). unfold up_uses. now rewrite X. }
  destruct (units_are_sorted _ (up_name h2) (up_uses h2) order topo ps It To Dp Du) as [So Ci].
  assert (P : Permutation sorted ps).
  { destruct So as (r & Er & P & _); [intros C; rewrite (Ci C) in Es; discriminate|]. rewrite Es in Er. injection Er as <-. exact P. }
  assert (W : Forall (IdMain.waits files IdUnits.st1 h2) sorted).
  { rewrite Forall_forall in W2 |- *. intros p J. apply W2. eapply Permutation_in; eauto. }
  assert (Nd : NoDup (map up_unit sorted)) by (eapply Permutation_NoDup; [apply Permutation_map, Permutation_sym, P|exact D2]).
  destruct (IdMain.pass _ _ _ _ (IdMain.step_intf _ RS _) IdUnits.tree1 IdUnits.tree2 (fun path o q => proj1 q) _ _ _ _ W Nd A2 E3) as (U3 & W3 & _ & _).
  pose proof (step_back _ _ _ (IdMain.step_intf _ RS _) IdUnits.tree1 _ _ _ _ W Nd E3) as B3.
  pose proof (step_back _ _ _ (IdMain.step_impl _ RS _) IdUnits.tree2 _ _ _ _ W3 ltac:(rewrite U3; exact Nd) E4) as B4.
  assert (We2 : well h2).
  { eapply well_settled; [exact (each_settled _ (fun a h b h' => load_settled R files pc a h b h') _ _ _ _ El)|].
    eapply well_settled; [|exact We]. pose proof (settled_contexts none sep pc us h) as X. now rewrite Ec in X. }
  destruct (each_intf _ RL _ _ _ _ E3 We2) as (_ & O3 & _).
  intros u Nu. rewrite Un in Nu.
  assert (N2 : nth_error (h_units h2) u <> None) by (intros X; apply Nu, B4, B3, X).
  destruct (C2 u N2) as [X|J]; [now rewrite Em1 in X|]. apply in_map_iff in J as (p & <- & J).
  eapply (offers_settled none); [exact St|intros []|]. eapply (offers_settled none); [exact (each_settled _ (impl_settled R RL) _ _ _ _ E4)|intros []|].
  apply O3. eapply Permutation_in; [apply Permutation_sym, P|exact J].
Qed.
Lemma l_program_head c : lets (parse_program_head R c).
Proof.
  unfold parse_program_head. lu; [|apply u_uses_next]. apply lets_onheap. intros X' c' h' x' h'' . destruct (ctx_path h' c); [|discriminate].
  intros [= <- <-]. now apply settled_same.
Qed.
Lemma program_all sep order topo path pa pc h : iterates order -> toposort_ok topo ->
  parse_program R files sep order topo path = ROk (pa, pc) h ->
  distinct_names (map (fun o => i_name (un_ident o)) (h_units h)) -> forall u, nth_error (h_units h) u <> None -> offers h u.
Proof.
  intros It To. unfold parse_program. destruct (files path) as [text|] eqn:F; [|discriminate].
  assert (H0 : h_units (fst (new_program_context heap0 path)) = []) by reflexivity.
  assert (W0 : well (fst (new_program_context heap0 path))).
  { split; [|intros u; left; now destruct u]. intros o a [<-|[]] [= <-]. cbn. lia. }
  pose proof (RefUnits.good_program_context path) as G0.
  destruct (new_program_context heap0 path) as [h0 c]. cbn [fst] in H0, W0, G0.
  pose proof (IdUnits.wq_next text [] (fun _ s' => IdUnits.after text s' [] /\ s_heap s' = h0) _ (IdMain.start_after text c h0) (fun _ s' A E => conj A E)) as X.
  unfold IdUnits.wq in X. destruct (run Next _) as [o0 s| | | |] eqn:E0; try discriminate. destruct X as [A0 Eh].
  assert (V0 : exists n0, RefFacts.Inv n0 s).
  { set (s0 := mkPst _ None c [] h0) in E0. assert (V : RefFacts.Inv [] s0) by (split; [exact G0|intros ? ? []]).
    pose proof (RefUnits.tied_run _ [] s0 (RefFacts.tied_next []) V) as X. rewrite E0 in X. destruct X as (n0 & _ & V0). eauto. }
  destruct V0 as (n0 & V0).
  unfold parse_program_at. pose proof (IdMain.q_program_head R files c _ _ A0) as X. unfold IdUnits.wq in X.
  pose proof (RefUnits.tied_run _ n0 s (RefUnits.t_parse_program_head R [] c) V0) as Y.
  pose proof (l_program_head c) as L1.
  destruct (run (parse_program_head R c) s) as [[pa1 l] s1| | | |] eqn:E1; cbn [on_parser rbind]; try discriminate. cbn [fst snd] in X.
  destruct X as (o1 & _ & _ & _ & F1 & A1). destruct Y as (n1 & _ & V1). apply (L1 none) in E1.
  assert (W1 : well (s_heap s1)) by (eapply well_settled; [exact E1|rewrite Eh; exact W0]).
  assert (Em : forall k, nth_error (h_units (s_heap s1)) k = None).
  { intros k. apply (IdUnits.fr_back _ _ _ F1); [discriminate|]. rewrite Eh, H0. now destruct k. }
  destruct (match l with Some us => load_units R files sep order topo c pa1 us (s_heap s1) | None => ROk tt (s_heap s1) end) as [[] h2| | | |] eqn:E2; cbn [rbind]; try discriminate.
  assert (L3 : lets (parse_program_rest R pa1 l)).
  { unfold parse_program_rest. lu; [now apply l_parse_block|]. apply lets_onheap. intros X c' h' x' h''. destruct (nth_error (h_progs h') pa1); [|discriminate].
    intros [= <- <-]. now apply settled_same. }
  destruct (run (parse_program_rest R pa1 l) _) as [pa2 s3| | | |] eqn:E3; cbn [on_parser rbind fst snd]; try discriminate. intros [= -> -> <-] Dn u Nu.
  assert (U3 : h_units (s_heap s3) = h_units h2).
  { assert (A2 : IdUnits.after text (with_heap h2 s1) []) by (apply IdUnits.after_heap; eapply IdUnits.after_sub; [exact A1|exact (IdFacts.subseq_end [] [] _ (IdFacts.subseq_refl []))]).
    assert (Q : IdUnits.wq (parse_program_rest R pa1 l) (fun _ s' => h_units (s_heap s') = h_units h2) (with_heap h2 s1)).
    { unfold parse_program_rest. apply IdUnits.wq_bind. eapply IdUnits.wq_spelled; [apply (IdParse.i_parse_block R RS)|exact A2|].
      intros b s4 A4 (S1 & _ & _). apply IdUnits.wq_bind, IdUnits.wq_heap. intros x h'. destruct (nth_error (h_progs (s_heap s4)) pa1); [|discriminate]. intros [= _ <-].
      apply IdUnits.wq_bind. eapply (IdUnits.wq_expect text); [apply IdUnits.after_heap; exact A4|]. intros t A5 _. apply IdUnits.wq_ret. exact S1. }
    unfold IdUnits.wq in Q. rewrite E3 in Q. exact Q. }
  apply (L3 none) in E3. eapply (offers_settled none); [exact E3|intros []|]. cbn [with_heap s_heap]. rewrite U3 in Dn, Nu.
  destruct l as [us|]; [eapply load_units_all; try eassumption; apply V1|]. injection E2 as <-. now rewrite Em in Nu.
Qed.
End Files.

(** ** The theorems *)

Theorem every_unit_of_program_offers_its_interface :
  forall n files sep order topo path pa pc h, iterates order -> toposort_ok topo ->
  parse_program (recs_at n) files sep order topo path = ROk (pa, pc) h ->
  distinct_names (map (fun o => i_name (un_ident o)) (h_units h)) ->
  forall u o, nth_error (h_units h) u = Some o ->
  offers_only h o /\ (clear_groups (groups o) -> offers_first h o).
Proof.
  intros n files sep order topo path pa pc h It To E D u o Eo. eapply offers_said; [exact Eo|].
  eapply (program_all _ (recs_at_let n) (IdParse.recs_at_spelled n) files (RefParse.recs_at_tied n)); eauto. congruence.
Qed.
End WithUnicode.
