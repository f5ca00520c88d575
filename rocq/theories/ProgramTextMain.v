(** A program with units in files is read back. *)
From Coq Require Import String List Arith NArith Bool Lia Permutation.
From Verif Require Import ListUtil Runes UnicodeFacts Token Tokenizer LexSpec LexShape LexFacts LexMain Ext ExtSpec ExtMain Ast Heap Classes MapSpec MapFacts MapMain Prog Parser ParseSpec RunFacts
  ExprSpec WpFacts ExprFacts StmtSpec GrowFacts StmtFacts EvolveFacts EvolveParse Units UnitSpec SortMain UsesMain TermUnitSpec DeclSpec ScopeFacts DeclFacts TypeFacts SectionFacts DeclMain TermUnit TermProgram UnitTextSpec UnitTextFacts UnitBodyFacts UnitTextMain ProgramTextSpec ProgramTextFacts ProgramLinkFacts ProgramPassFacts ProgramUnitFacts ProgramNameFacts.
Import ListNotations.
Local Open Scope list_scope.
Local Open Scope prog_scope.

Section WithUnicode.
Context {U : Unicode} {UOK : UnicodeOk U}.
Notation words := (list (ttype * gostring)).
Ltac fl := cbv beta iota; repeat (match goal with
  | |- wp (Bind (Ret _) _) _ _ => apply wp_ret_bind
  | |- wp (Bind (Bind _ _) _) _ _ => apply wp_assoc
  end; cbv beta iota).

(** ** Pairs *)
Lemma in_combine_nth {A B} (l1 : list A) (l2 : list B) a b : In (a, b) (combine l1 l2) <-> exists k, nth_error l1 k = Some a /\ nth_error l2 k = Some b.
Proof.
  revert l2. induction l1 as [|x l1 IH]; intros [|y l2]; cbn [combine In].
  - split; [intros []|intros ([|k] & E & _); discriminate].
  - split; [intros []|intros ([|k] & E & _); discriminate].
  - split; [intros []|intros ([|k] & _ & E); discriminate].
  - rewrite IH. split.
    + intros [[= -> ->]|(k & E)]; [exists 0; auto|exists (S k); exact E].
    + intros ([|k] & E1 & E2); [left; cbn in *; congruence|right; exists k; auto].
Qed.
Lemma combine_maps {A B C} (f : A -> B) (g : A -> C) l : combine (map f l) (map g l) = map (fun x => (f x, g x)) l.
Proof. induction l as [|x l IH]; cbn; [reflexivity|now rewrite IH]. Qed.
Lemma all_pairs {A B} (l1 : list A) : forall l2 : list B, length l1 = length l2 -> Forall2 (fun a b => In (a, b) (combine l1 l2)) l1 l2.
Proof.
  induction l1 as [|a l1 IH]; intros [|b l2] L; try discriminate; constructor; [now left|]. eapply Forall2_imp; [|apply IH; now injection L]. intros x y J. now right.
Qed.
Lemma forall2_pairs {A B} (P : A -> B -> Prop) l1 l2 : length l1 = length l2 -> (forall a b, In (a, b) (combine l1 l2) -> P a b) -> Forall2 P l1 l2.
Proof. intros L H. eapply Forall2_imp; [|apply all_pairs; exact L]. exact H. Qed.
Lemma forall2_length {A B} (P : A -> B -> Prop) l1 l2 : Forall2 P l1 l2 -> length l1 = length l2.
Proof. induction 1; cbn; auto. Qed.
Lemma forall2_in {A B} (P : A -> B -> Prop) l1 l2 a b : Forall2 P l1 l2 -> In (a, b) (combine l1 l2) -> P a b.
Proof. induction 1 as [|x y l1 l2 H _ IH]; intros J; [destruct J|]. destruct J as [[= -> ->]|J]; auto. Qed.
Lemma forall2_maps {A B C} (P : B -> C -> Prop) (f : A -> B) (g : A -> C) l : (forall x, In x l -> P (f x) (g x)) -> Forall2 P (map f l) (map g l).
Proof. induction l as [|x l IH]; intros H; cbn [map]; constructor; [apply H; now left|]. apply IH. intros y J. apply H. now right. Qed.
Lemma same_item (us : list nat) : forall (l : uses_source) a a' i i', distinct_names (map fst l) -> In (a, i) (combine us l) -> In (a', i') (combine us l) ->
  same_name (fst i) (fst i') -> a = a' /\ i = i'.
Proof.
  induction us as [|b us IH]; intros [|j l] a a' i i' D J J' S; try (destruct J; fail). cbn [combine] in J, J'. destruct J as [J|J].
  - injection J as <- <-. destruct J' as [[= <- <-]|J']; [auto|]. exfalso. unfold distinct_names in D. cbn [map] in D. apply NoDup_cons_iff in D as [D _]. apply D.
    unfold same_name in S. rewrite S. apply in_map, in_map. eapply in_combine_r; eauto.
  - unfold distinct_names in D. cbn [map] in D. apply NoDup_cons_iff in D as [D1 D2]. destruct J' as [[= <- <-]|J']; [|eapply IH; eauto].
    exfalso. apply D1. unfold same_name in S. rewrite <- S. apply in_map, in_map. eapply in_combine_r; eauto.
Qed.

(** ** What is tied is linked *)
Lemma tied_linked at_ all h a i : distinct_names (map us_name all) -> called at_ all h -> tied at_ h a i -> item_linked h at_ all a i.
Proof.
  intros D C (o & Eo & N & P & Lk). exists o. split; [exact Eo|]. split; [exact N|]. split; [exact P|]. intros v. rewrite Lk. split.
  - intros F. pose proof (find_pair at_ all h (fst i) C) as X. rewrite F in X. destruct (unit_named all (fst i)) as [u|]; [|destruct X]. destruct X as [J S].
    apply in_combine_nth in J as (k & E1 & E2). exists k, u. split; [exact E1|]. split; [exact E2|]. now apply same_sym.
  - intros (k & u & E1 & E2 & S). apply (find_at h at_ all v u (fst i) C D); [apply in_combine_nth; eauto|now apply same_sym].
Qed.
Lemma clause_tied_linked at_ all h us l : distinct_names (map us_name all) -> called at_ all h -> clause_tied at_ h us l -> clause_linked h at_ all us l.
Proof. intros D C. destruct us, l; cbn; auto. apply Forall2_imp. intros a i. now apply tied_linked. Qed.
Lemma finished_linked at_ all h v g a : distinct_names (map us_name all) -> called at_ all h -> finished at_ h v g a -> unit_linked h at_ all v (g_unit g, g_path g).
Proof.
  intros D C (o & l & A1 & A2 & (H1 & H2 & H3 & (i1 & H4 & H5 & H6) & (i2 & H7 & H8 & H9) & H10) & (i3 & A4 & A4') & A5 & A6). exists o. cbn [fst snd]. split; [exact A1|]. split.
  - split; [exact H1|]. split; [exact H2|]. split; [exact H3|]. split; [|split; [|exact H10]].
    + exists i1. split; [exact H4|]. split; [now apply clause_tied_linked|exact H6].
    + exists i2. split; [exact H7|]. split; [now apply clause_tied_linked|exact H9].
  - exists i3. split; [exact A4|]. rewrite A2, A4'. destruct l; exact A6.
Qed.
Lemma finished_bound at_ h v g a : finished at_ h v g a -> a < length (h_maps h).
Proof.
  intros (o & l & _ & _ & _ & _ & _ & (_ & _ & An)). specialize (An []). cbn in An. unfold impl_get in An. destruct (nth_error (h_maps h) a) eqn:E; [eapply nth_lt; eauto|congruence].
Qed.
Lemma clause_there h us l a : listed h us l -> In a us -> exists i, In (a, i) (combine us l).
Proof. induction 1 as [|b i us l _ _ IH]; intros J; [destruct J|]. destruct J as [<-|J]; [exists i; now left|]. destruct (IH J) as (j & H). exists j. now right. Qed.
Lemma listed_pair h us l a i : listed h us l -> In (a, i) (combine us l) -> exists o, nth_error (h_uses h) a = Some o /\ i_name (u_ident o) = fst i /\ u_path o = snd i.
Proof. induction 1 as [|b j us l H _ IH]; intros J; [destruct J|]. destruct J as [[= <- <-]|J]; auto. Qed.
Lemma all_tied at_ all h us l : called at_ all h -> fits at_ h -> listed h us l -> distinct_names (map fst l) ->
  (forall v u, In (v, u) (combine at_ all) -> exists a i o, In (a, i) (combine us l) /\ nth_error (h_uses h) a = Some o /\ u_unit o = Some v /\ same_name (fst i) (us_name u)) ->
  Forall2 (tied at_ h) us l.
Proof.
  intros C Ft Li D H. apply forall2_pairs; [unfold listed in Li; eapply forall2_length; exact Li|]. intros a i J. destruct (listed_pair h us l a i Li J) as (o & Eo & N & P).
  exists o. split; [exact Eo|]. split; [exact N|]. split; [exact P|]. pose proof (find_pair at_ all h (fst i) C) as X.
  destruct (find_name (unit_name h) at_ (fst i)) as [v|] eqn:F.
  - destruct (unit_named all (fst i)) as [u|]; [|destruct X]. destruct X as [Jv S]. destruct (H v u Jv) as (a' & i' & o' & J' & Eo' & Uo & S').
    destruct (same_item us l a a' i i' D J J' (same_trans _ _ _ S (same_sym _ _ S'))) as [<- _]. congruence.
  - destruct (u_unit o) as [w|] eqn:Uo; [|reflexivity]. apply (Ft a o w Eo) in Uo. rewrite N in Uo. congruence.
Qed.

(** ** The names of the units are different *)
Lemma files_names sep l : distinct_names (map fst l) -> distinct_names (map fst (items_with_file sep l)) /\
  (forall i, In i (items_with_file sep l) -> exists j, In j l /\ fst j = fst i).
Proof.
  unfold distinct_names. induction l as [|i l IH]; intros D; [split; [constructor|intros ? []]|]. cbn [map] in D. apply NoDup_cons_iff in D as [Nd D]. destruct (IH D) as [D1 H1].
  unfold items_with_file in *. cbn [flat_map]. split.
  - assert (X : Forall (fun j => fst j = fst i) (map (pair (fst i)) (item_file sep i)) /\ length (item_file sep i) <= 1).
    { split; [apply Forall_forall; intros j J; apply in_map_iff in J as (p & <- & _); reflexivity|]. unfold item_file.
      repeat match goal with |- context [match ?x with _ => _ end] => destruct x end; cbn; lia. }
    destruct (item_file sep i) as [|p [|p2 ps]]; cbn [map app length] in *; [exact D1| |lia].
    constructor; [|exact D1]. intros J. apply Nd. apply in_map_iff in J as (n & E & J). apply in_map_iff in J as (j & <- & J). destruct (H1 j J) as (j' & J' & E').
    cbn [fst] in E. rewrite <- E, <- E'. apply in_map, in_map. exact J'.
  - intros j J. apply in_app_or in J as [J|J]; [|destruct (H1 j J) as (j' & J' & E'); exists j'; split; [now right|exact E']].
    apply in_map_iff in J as (p & <- & _). exists i. split; [now left|reflexivity].
Qed.
Lemma same_distinct {A B} (f : A -> gostring) (g : B -> gostring) l1 l2 : Forall2 (fun a b => same_name (f a) (g b)) l1 l2 -> distinct_names (map f l1) -> distinct_names (map g l2).
Proof.
  intros F. unfold distinct_names. replace (map to_lower (map g l2)) with (map to_lower (map f l1)); [auto|]. induction F as [|a b l1 l2 S F IH]; [reflexivity|].
  cbn [map]. f_equal; auto.
Qed.

(** ** The context of the program gets its maps *)
Section Ending.
Context (at_ : list nat) (all : list unit_source) (us : list nat) (l : uses_source) (pc pa : nat) (s0 : pst) (text : list rune) (ws : words)
  (q : option gostring) (m0 : nat) (sc : scope) (po : progobj).
Definition with_map (o : progobj) (m : dmap) : progobj := mkProg (pr_path o) (pr_ident o) (pr_block o) m.
Lemma units_named_at h h1 : Forall2 (fun v u => exists o a, nth_error (h_units h) v = Some o /\ un_map o = DImpl a /\ gives h (DImpl a) u /\ a < length (h_maps h)) at_ all ->
  frame (eq (length (h_maps h))) nobody_at nobody_at h h1 -> Forall2 (gives h1) (units_maps h at_) all.
Proof.
  intros G F. unfold units_maps. induction G as [|v u l1 l2 (o & a & Eo & Em & Gv & La) G IH]; [constructor|]. cbn [map]. constructor; [|exact IH].
  rewrite Eo, Em. eapply gives_frame; [exact F| |exact Gv]. lia.
Qed.
Lemma new_map_frame h : frame nobody_at nobody_at nobody_at h (with_maps (h_maps h ++ [[]]) h).
Proof.
  constructor; cbn [with_maps h_uses h_units h_progs h_decls h_maps h_ctxs]; auto; try (intros ? o E; exists o; auto; fail).
  - exists []. now rewrite app_nil_r.
  - intros a m E. exists m. rewrite nth_error_app1 by (eapply nth_lt; eauto). split; [exact E|]. split; [auto|apply keeps_refl].
  - rewrite app_length. lia.
Qed.
Lemma ending h4 : main pc all at_ s0 q m0 text sc ws us l pa po h4 -> distinct_names (map us_name all) -> distinct_names (map fst l) ->
  Forall (fun u => exists i, In i l /\ same_name (fst i) (us_name u)) all -> pr_map po = DNil ->
  Forall2 (fun v u => exists o a, nth_error (h_units h4) v = Some o /\ un_map o = DImpl a /\ gives h4 (DImpl a) u /\ a < length (h_maps h4)) at_ all ->
  exists h' local rest,
    (let '(h5, um) := new_map h4 in
     rbind (name_units us (DImpl um) at_ h5) (fun _ h6 =>
       let '(h7, local) := new_map h6 in
       match nth_error (h_ctxs h7) pc, nth_error (h_progs h7) pa with
       | Some co, Some po =>
           let maps := [DImpl local; DImpl um] ++ maps_reverse (units_maps h7 at_) ++ [cx_map co] in
           let h8 := ctx_put_map h7 pc (DComposite maps) in
           let h9 := with_progs (set_nth pa (mkProg (pr_path po) (pr_ident po) (pr_block po) (DImpl local)) (h_progs h8)) h8 in
           match map_set h9 (DImpl local) [mkDecl (pr_ident po) (NProgram pa)] with
           | SOk h10 | SErr h10 _ => ROk tt h10
           | SPanic => RPanic
           end
       | _, _ => RPanic
       end)) = ROk tt h' /\
    in_scope text (declare_unit (i_name (pr_ident po)) (qualified (map (fun u => (us_name u, u)) all) (declare_units (map us_name all) (import all sc)))) (with_heap h' s0) ws /\
    nth_error (h_progs h') pa = Some (with_map po (DImpl local)) /\
    nth_error (h_ctxs h') pc = Some (mkCtx (KProgram at_) q (DComposite (DImpl local :: rest))) /\
    Forall2 (tied at_ h') us l /\ called at_ all h' /\ at_there at_ h' /\ fits at_ h' /\ length (h_maps h4) <= local /\
    (forall v g a, finished at_ h4 v g a -> finished at_ h' v g a).
Proof.
  intros [M1 M2 M3 M4 M5 M6 M7 M8] D Dl It Pm G. set (um := length (h_maps h4)). set (h5 := with_maps (h_maps h4 ++ [[]]) h4).
  set (ms := units_maps h4 at_). set (tl := rev ms ++ [DChained DEmbedded m0]).
  set (cx := set_nth pc (mkCtx (KProgram at_) q (DComposite (DImpl um :: tl))) (h_ctxs h4)).
  assert (Hcx : nth_error cx pc = Some (mkCtx (KProgram at_) q (DComposite (DImpl um :: tl)))) by (apply nth_set_nth_eq; eapply nth_lt; eauto).
  pose proof (new_map_frame h4) as F5. fold h5 in F5.
  assert (Gm4 : Forall2 (gives h4) ms all) by (apply units_named_at; [exact G|apply frame_refl]).
  assert (I5 : in_scope text (import all sc) (seen s0 cx h5) ws).
  { unfold seen. change (with_heap (with_ctxs cx h5) s0) with (with_heap (with_ctxs cx h5) (with_heap h4 s0)).
    eapply (in_scope_import text sc (with_heap h4 s0) ws _ (mkCtx (KProgram at_) q (DChained DEmbedded m0)) ms all); [exact M3| | | | | | | |exact Gm4]; cbn [with_heap s_heap s_ctx]; rewrite ?M1; auto. }
  assert (La : length at_ = length all) by (eapply forall2_length; exact M6).
  destruct (names_units at_ all us l pc s0 text ws cx um (KProgram at_) q tl M1 Hcx D at_ all h5 (import all sc)) as (h6 & R6 & F6 & Ft6 & U6 & X6 & P6 & L6 & I6 & It6 & _); auto.
  { now apply all_pairs. }
  { apply Forall_forall. intros n _. exact Logic.I. }
  assert (F46 : frame (eq um) nobody_at nobody_at h4 h6).
  { eapply frame_trans; [eapply (frame_weak _ _ _ (eq um) nobody_at nobody_at); [exact F5|intros ? ? []|intros ? ? []|intros ? ? []]|exact F6|auto|auto|auto]. }
  assert (C6 : called at_ all h6) by (eapply called_frame; [exact F46|exact M7|exact M6]).
  assert (T6 : at_there at_ h6) by (eapply at_frame; [exact F46|exact M7]).
  assert (Li6 : listed h6 us l) by (exact (listed_frame _ _ _ _ _ (Some us) (Some l) F46 M4)).
  assert (Gm6 : Forall2 (gives h6) ms all) by (apply units_named_at; [exact G|exact F46]).
  assert (Ti6 : Forall2 (tied at_ h6) us l).
  { apply (all_tied at_ all); auto. intros v u J. assert (X : item_of us l pc cx h6 v u) by (eapply forall2_in; eauto).
    destruct X as (a & i & o & B1 & B2 & B3 & B4 & _). exists a, i, o. auto. }
  assert (Iq : in_scope text (qualified (map (fun u => (us_name u, u)) all) (declare_units (map us_name all) (import all sc))) (seen s0 cx h6) ws).
  { apply in_scope_qualified; [exact I6|]. intros n u x y J S Dn. apply in_map_iff in J as (u' & [= <- <-] & J).
    apply In_nth_error in J as (k & Ek). assert (exists v, nth_error at_ k = Some v) as (v & Ev) by (destruct (nth_error at_ k) eqn:E; [eauto|apply nth_error_None in E; apply nth_lt in Ek; lia]).
    assert (Jv : In (v, u') (combine at_ all)) by (apply in_combine_nth; eauto).
    assert (X : item_of us l pc cx h6 v u') by (eapply forall2_in; eauto).
    destruct X as (a & i & o & B1 & B2 & B3 & B4 & B5). destruct (B5 x S) as (d & Rd).
    assert (exists uo, nth_error (h_units h6) v = Some uo /\ gives h6 (un_map uo) u') as (uo & Eu & Gu).
    { destruct (forall2_in _ _ _ _ _ G Jv) as (o1 & a1 & Eo1 & Em1 & Go1 & La1). exists o1. rewrite U6. split; [exact Eo1|]. rewrite Em1.
      eapply gives_frame; [exact F46| |exact Go1]. unfold um. lia. }
    specialize (Gu y). destruct (declares u' y) as [dy|]; [|congruence]. destruct Gu as (qy & dy' & Gy & _). exists d, qy. unfold seen, senv_of. cbn [with_heap s_heap s_ctx]. rewrite M1. cbn.
    exists (NUses a), (un_map uo). split; [exact Rd|]. split; [cbn; exists o, v, uo; auto|]. rewrite <- Gy. now apply dget_same_maps. }
  set (h7 := with_maps (h_maps h6 ++ [[]]) h6). set (local := length (h_maps h6)). pose proof (new_map_frame h6) as F7. fold h7 in F7.
  set (maps := DImpl local :: DImpl um :: tl). set (h8 := ctx_put_map h7 pc (DComposite maps)).
  assert (Ec7 : nth_error (h_ctxs h7) pc = Some (mkCtx (KProgram at_) q (DChained DEmbedded m0))) by (change (h_ctxs h7) with (h_ctxs h6); rewrite X6; exact M2).
  pose proof (put_map_frame h7 pc (DComposite maps) _ Ec7) as F8. fold h8 in F8.
  assert (Y : h_uses h8 = h_uses h6 /\ h_units h8 = h_units h6 /\ h_progs h8 = h_progs h6 /\ h_maps h8 = h_maps h6 ++ [[]] /\ h_decls h8 = h_decls h6).
  { unfold h8. rewrite ctx_put_map_maps, ctx_put_map_decls. unfold ctx_put_map. rewrite Ec7. auto. }
  destruct Y as (Y1 & Y2 & Y3 & Y4 & Y5).
  assert (Ec8 : nth_error (h_ctxs h8) pc = Some (mkCtx (KProgram at_) q (DComposite maps))) by (unfold h8; now rewrite (ctx_put_map_ctx _ _ _ _ Ec7)).
  assert (Ep6 : nth_error (h_progs h6) pa = Some po) by (rewrite P6; exact M5).
  set (po' := with_map po (DImpl local)). set (h9 := with_progs (set_nth pa po' (h_progs h8)) h8).
  assert (Em9 : nth_error (h_maps h9) local = Some []) by (change (h_maps h9) with (h_maps h8); rewrite Y4; apply nth_app_new).
  set (h10 := put_one h9 local [] (pr_ident po) (NProgram pa)).
  pose proof (put_one_frame h9 local [] (pr_ident po) (NProgram pa) Em9) as F10. fold h10 in F10.
  assert (K : forall p, KProgram at_ <> KStack p) by discriminate.
  assert (I9 : in_scope text (qualified (map (fun u => (us_name u, u)) all) (declare_units (map us_name all) (import all sc))) (with_heap h9 s0) ws).
  { eapply (in_scope_view text _ (seen s0 cx h6)); [exact Iq| | | | | |apply stands_heap; exact (sc_stands _ _ _ _ Iq)]; unfold seen; cbn [with_heap s_heap s_ctx]; rewrite ?M1.
    - exists (mkCtx (KProgram at_) q (DComposite maps)). cbn [with_heap s_heap s_ctx]. rewrite M1. split; [exact Ec8|exact K].
    - intros n. rewrite (ctx_get_plain h9 pc _ n Ec8 K), (ctx_get_plain (with_ctxs cx h6) pc _ n Hcx K). cbn [cx_map]. unfold maps.
      change (dget h9 (DComposite (DImpl local :: DImpl um :: tl)) n) with (match impl_get h9 local n with LNil => dget h9 (DComposite (DImpl um :: tl)) n | r => r end).
      unfold impl_get at 1. rewrite Em9. cbn [mget]. apply dget_reads. intros a J. unfold impl_get. change (h_maps h9) with (h_maps h8). change (h_maps (with_ctxs cx h6)) with (h_maps h6). rewrite Y4.
      rewrite nth_error_app1; [reflexivity|]. apply (scope_reads text _ (seen s0 cx h6) ws (mkCtx (KProgram at_) q (DComposite (DImpl um :: tl))) a Iq); [unfold seen; cbn [with_heap s_heap s_ctx]; now rewrite M1|exact J].
    - intros [e|e] x; cbn; [auto|]. change (h_decls h9) with (h_decls h8). rewrite Y5. auto.
    - intros n _. exists (mkCtx (KProgram at_) q (DComposite maps)), local, []. split; [exact Ec8|]. split; [reflexivity|]. split; [exact Em9|reflexivity].
    - intros x mp n d NM Gd. assert (Gd' : exists d', dget h9 mp n = LFound d').
      { destruct (found_frame _ _ _ _ _ mp n d F7) as (d1 & G1); [rewrite <- Gd; now apply dget_same_maps|]. exists d1. rewrite <- G1. apply dget_same_maps. exact Y4. }
      destruct Gd' as (d' & Gd'). exists mp, d'. split; [|exact Gd']. destruct x; cbn in NM |- *; try exact NM.
      + change (h_uses h9) with (h_uses h8). change (h_units h9) with (h_units h8). rewrite Y1, Y2. exact NM.
      + change (h_units h9) with (h_units h8). rewrite Y2. exact NM.
      + destruct NM as (p1 & E1 & E2). change (h_progs h9) with (set_nth pa po' (h_progs h8)). rewrite Y3. match goal with |- context [nth_error _ ?b] => destruct (Nat.eq_dec pa b) as [<-|Nb] end.
        * exfalso. change (h_progs (with_ctxs cx h6)) with (h_progs h6) in E1. rewrite Ep6 in E1. injection E1 as <-. rewrite <- E2, Pm in Gd. discriminate Gd.
        * exists p1. rewrite nth_set_nth_neq by exact Nb. auto. }
  destruct (set_core (with_heap h9 s0) [mkDecl (pr_ident po) (NProgram pa)]) as (hv & Rv & Fv).
  { apply I9. }
  { constructor; [|constructor]. cbn [with_heap s_heap s_ctx]. rewrite M1. exists (mkCtx (KProgram at_) q (DComposite maps)), local, []. split; [exact Ec8|]. split; [reflexivity|]. split; [exact Em9|reflexivity]. }
  { discriminate. }
  { cbn. constructor; [intros []|constructor]. }
  assert (S9 : map_set h9 (DImpl local) [mkDecl (pr_ident po) (NProgram pa)] = SOk h10) by (now apply set_one).
  assert (hv = h10) as ->.
  { unfold set in Rv. cbn [run with_heap s_heap s_ctx] in Rv. rewrite M1 in Rv. unfold ctx_set in Rv. change (h_ctxs h9) with (h_ctxs h8) in Rv. rewrite Ec8 in Rv. cbn [cx_map] in Rv. unfold maps in Rv.
    change (map_set h9 (DComposite (DImpl local :: DImpl um :: tl))) with (map_set h9 (DImpl local)) in Rv. rewrite S9 in Rv.
    apply (f_equal (fun o => match o with OOk _ s => Some (s_heap s) | _ => None end)) in Rv. cbn [with_heap s_heap] in Rv. now injection Rv as <-. }
  pose proof (in_scope_name text _ _ _ _ (NProgram pa) _ ltac:(discriminate) I9 Fv) as I10. change (with_heap h10 (with_heap h9 s0)) with (with_heap h10 s0) in I10.
  assert (F48 : frame (eq um) (eq pc) nobody_at h4 h8).
  { eapply frame_trans; [eapply (frame_weak _ _ _ (eq um) (eq pc) nobody_at); [exact F46|auto|intros ? ? []|intros ? ? []]| | | |]; [eapply (frame_trans nobody_at (eq pc) nobody_at); [eapply frame_weak; [exact F7|intros ? ? []|intros ? ? []|intros ? ? []]|exact F8|auto|auto|auto]|intros ? ? []|auto|auto]. }
  assert (F68 : frame nobody_at (eq pc) nobody_at h6 h8).
  { eapply (frame_trans nobody_at (eq pc) nobody_at); [eapply frame_weak; [exact F7|intros ? ? []|intros ? ? []|intros ? ? []]|exact F8|auto|auto|auto]. }
  assert (T8 : at_there at_ h8) by (eapply at_frame; eauto).
  assert (Ft8 : fits at_ h8) by (eapply (fits_more at_ _ _ _ h6 h8 []); [exact F68|exact T6|rewrite app_nil_r; exact Y1|constructor|exact Ft6]).
  assert (C8 : called at_ all h8) by (eapply called_frame; eauto).
  assert (Ft9 : fits at_ h9) by exact Ft8. assert (T9 : at_there at_ h9) by exact T8. assert (C9 : called at_ all h9) by exact C8.
  assert (Ft10 : fits at_ h10) by (eapply (fits_more at_ _ _ _ h9 h10 []); [exact F10|exact T9|rewrite app_nil_r; reflexivity|constructor|exact Ft9]).
  exists h10, local, (DImpl um :: tl).
  split; [|split; [exact I10|split; [|split; [|split; [|split; [|split; [|split; [exact Ft10|split]]]]]]]].
  - unfold new_map. fold um h5. rewrite R6. cbn [rbind]. fold h7 local. rewrite Ec7. change (h_progs h7) with (h_progs h6). rewrite Ep6. cbn [cx_map].
    replace (units_maps h7 at_) with ms by (unfold ms, units_maps; change (h_units h7) with (h_units h6); rewrite U6; reflexivity).
    rewrite maps_reverse_rev. cbv zeta. cbn [app]. fold tl maps h8. fold (with_map po (DImpl local)). fold po' h9. rewrite S9. reflexivity.
  - change (h_progs h10) with (set_nth pa po' (h_progs h8)). apply nth_set_nth_eq. rewrite Y3. eapply nth_lt; eauto.
  - exact Ec8.
  - assert (Ti8 : clause_tied at_ h8 (Some us) (Some l)) by (eapply clause_tied_frame; [exact F68|exact T6|exact Ft8|exact Ti6]).
    exact (clause_tied_frame at_ _ _ _ h9 h10 (Some us) (Some l) F10 T9 Ft10 Ti8).
  - eapply called_frame; [exact F10|exact T9|exact C9].
  - eapply at_frame; [exact F10|exact T9].
  - pose proof (fr_maplen _ _ _ _ _ F46). exact H.
  - intros v g a Fn. pose proof (finished_bound _ _ _ _ _ Fn) as Lb.
    assert (Fn8 : finished at_ h8 v g a) by (eapply finished_frame; [exact F48|exact M7|exact Ft8|intros E; unfold um in E; lia|intros []|exact Fn]).
    assert (Fn9 : finished at_ h9 v g a) by exact Fn8.
    eapply finished_frame; [exact F10|exact T9|exact Ft10| |intros []|exact Fn9]. pose proof (fr_maplen _ _ _ _ _ F46). intros E. unfold local in E. lia.
Qed.
End Ending.

(** ** All units *)
Lemma permuted {A B} (f : A -> B) l l' : Permutation l l' -> NoDup (map f l') -> NoDup (map f l).
Proof. intros P. apply Permutation_NoDup, Permutation_map. now symmetry. Qed.
Lemma loaded files sep order topo m pc pa s0 text ws q m0 l po us (xs : list (style * unit_source)) h : iterates order -> toposort_ok topo ->
  nth_error (h_ctxs h) pc = Some (mkCtx (KProgram []) q (DChained DEmbedded m0)) -> s_ctx s0 = pc ->
  in_scope text (after_clause (Some l) program_scope) (with_heap h s0) ws -> clause_listed h (Some us) (Some l) -> unitless (h_uses h) ->
  nth_error (h_progs h) pa = Some po -> pr_map po = DNil -> distinct_names (map fst l) ->
  Forall2 (in_its_file files m) (items_with_file sep l) xs -> ~ circular us_name (fun u => clause_names (us_uses u)) (map snd xs) ->
  Forall (fun x => good_unit_among (map snd xs) (fst x) (snd x)) xs ->
  exists h' at_ local rest, load_units (recs_at m) files sep order topo pc pa us h = ROk tt h' /\
    in_scope text (declare_unit (i_name (pr_ident po)) (qualified (map (fun u => (us_name u, u)) (map snd xs))
      (declare_units (map us_name (map snd xs)) (import (map snd xs) (after_clause (Some l) program_scope))))) (with_heap h' s0) ws /\
    nth_error (h_progs h') pa = Some (with_map po (DImpl local)) /\
    nth_error (h_ctxs h') pc = Some (mkCtx (KProgram at_) q (DComposite (DImpl local :: rest))) /\
    Forall2 (tied at_ h') us l /\ called at_ (map snd xs) h' /\ at_there at_ h' /\ fits at_ h' /\ distinct_names (map us_name (map snd xs)) /\
    Forall2 (fun v x => exists g a, g_unit g = fst x /\ g_path g = snd x /\ a <> local /\ finished at_ h' v g a) at_
      (combine (map snd xs) (map snd (items_with_file sep l))).
Proof.
  intros Io To Ec Es0 I Li Ul Ep Pm Dl Fx NC Gx. set (all := map snd xs) in *. destruct (files_names sep l Dl) as [Df Hf].
  assert (Dn : distinct_names (map us_name all)).
  { unfold all. rewrite map_map. eapply (same_distinct fst (fun x => us_name (snd x))); [|exact Df]. eapply Forall2_imp; [|exact Fx]. intros i x [S _]. exact S. }
  assert (It : Forall (fun u => exists i, In i l /\ same_name (fst i) (us_name u)) all).
  { apply Forall_forall. intros u J. apply in_map_iff in J as (x & <- & J). clear -Fx Hf J. revert Hf. induction Fx as [|i y ls ys [S _] Fx IH]; intros Hf; [destruct J|].
    destruct J as [->|J]; [|apply IH; [exact J|intros j Jj; apply Hf; now right]]. destruct (Hf i (or_introl eq_refl)) as (j & Jj & Ej). exists j. split; [exact Jj|]. now rewrite Ej. }
  (* the contexts *)
  destruct (contexts_new files sep pc us l h Li) as (cps & ms & h1 & R1 & Pc & Fc & F1 & U1 & N1 & Nc & Nm & Lc & Lm).
  assert (Ec1 : nth_error (h_ctxs h1) pc = Some (mkCtx (KProgram []) q (DChained DEmbedded m0))) by (eapply fr_ctxs; [exact F1|exact Ec|intros []]).
  assert (Fo : Forall2 (file_of files m) (map snd cps) xs).
  { rewrite Pc. clear -Fx. induction Fx as [|i y ls ys [_ F] Fx IH]; constructor; auto. }
  assert (Lcp : length cps = length xs) by (apply forall2_length in Fo; now rewrite map_length in Fo).
  (* the beginnings *)
  destruct (pass_1 files m pc all cps ms xs h1 [] q (DChained DEmbedded m0) Fc Nc Nm Fo Gx Ec1) as (es & h2 & R2 & W2 & Em & Eu & Ex & Eg & En & F2 & Ec2 & Lx & lu & Us & Ulu).
  cbn [app] in Ec2. set (at_ := map e_unit es) in *.
  assert (Ea : all = map (fun e => g_unit (e_g e)) es) by (unfold all; rewrite <- Ex, map_map; reflexivity).
  assert (Cb : combine at_ all = map (fun e => (e_unit e, g_unit (e_g e))) es) by (rewrite Ea; apply combine_maps).
  assert (I0 : m0 < length (h_maps h)) by (eapply (scope_reads text _ (with_heap h s0)); [exact I|cbn [with_heap s_heap s_ctx]; rewrite Es0; exact Ec|now left]).
  assert (F02 : frame (fun a => In a ms) (eq pc) nobody_at h h2).
  { eapply frame_trans; [eapply (frame_weak _ _ _ (fun a => In a ms) (eq pc) nobody_at); [exact F1|intros ? ? []|intros ? ? []|intros ? ? []]|exact F2|auto|auto|auto]. }
  assert (Nm0 : ~ In m0 ms) by (intros J; rewrite Forall_forall in Lm; apply Lm in J; lia).
  rewrite Forall_forall in W2.
  assert (Mn : main pc all at_ s0 q m0 text (after_clause (Some l) program_scope) ws us l pa po h2).
  { constructor; auto.
    - change (with_heap h2 s0) with (with_heap h2 (with_heap h s0)).
      eapply (in_scope_frame text (fun a => In a ms) (eq pc) nobody_at _ (with_heap h s0)); [exact I|cbn [with_heap s_heap s_ctx]; rewrite Es0; exact Ec|cbn [with_heap s_heap s_ctx]; rewrite Es0; exact Ec2|reflexivity|discriminate|exact F02| |intros ? ? []|auto].
      intros a [<-|[]]. exact Nm0.
    - eapply listed_frame; [exact F02|exact Li].
    - rewrite (fr_progs _ _ _ _ _ F02). exact Ep.
    - unfold called. apply forall2_pairs; [rewrite Ea; unfold at_; now rewrite !map_length|]. intros v u J. rewrite Cb in J. apply in_map_iff in J as (e & [= <- <-] & J). exact (waits_name m pc all h2 e (W2 e J)).
    - apply Forall_forall. intros v J. apply in_map_iff in J as (e & <- & J). destruct (W2 e J) as [[_ _ (i & u & E & _) _] _]. eapply nth_lt; exact E.
    - intros a o v Eo Eo'. exfalso. rewrite Us in Eo. rewrite U1 in Eo. apply nth_error_In in Eo. apply in_app_or in Eo. unfold unitless in *. rewrite Forall_forall in Ul, Ulu. destruct Eo as [J|J]; [apply Ul in J|apply Ulu in J]; congruence. }
  (* the order *)
  destruct (sorted_entries m pc all order topo h2 es Io To) as (es' & So & Pe & Or); [apply Forall_forall; exact W2|rewrite Ex; reflexivity|exact Dn|exact NC|].
  assert (Ie : forall e, In e es' <-> In e es) by (intros e; split; apply Permutation_in; [exact Pe|now symmetry]).
  (* the interface sections *)
  destruct (pass_2 files m pc all at_ s0 q m0 text (after_clause (Some l) program_scope) ws us l pa po (length (h_maps h2)) (length (h_ctxs h2)) es' [] h2) as (ds & h3 & R3 & I3 & K3).
  { constructor; auto; try (constructor; fail).
    - apply Forall_forall. intros e J. apply W2, Ie, J.
    - apply Forall_forall. intros e J. apply Ie in J. destruct (W2 e J) as [[A1 A2 _ A4] _]. split; [|eapply nth_lt; exact A2].
      eapply (scope_reads (g_text (e_g e)) _ (up_pst (e_p e) h2)); [exact A4|cbn [up_pst s_heap s_ctx]; rewrite A1; exact A2|now left].
    - cbn [map app]. eapply permuted; [exact Pe|]. rewrite Eu. exact Nc.
    - cbn [map app]. eapply permuted; [exact Pe|]. fold at_. rewrite En. apply seq_NoDup.
    - pose proof (fr_maplen _ _ _ _ _ F02). lia. }
  { intros pre e post Es v u n J Jn Sn. rewrite Cb in J. apply in_map_iff in J as (e' & [= <- <-] & J). exists (ekey e'). split; [|split; reflexivity]. cbn [map app]. apply in_map. eapply Or; eauto. }
  cbn [app map] in I3, K3.
  assert (Hk : forall e, In e es -> exists d, In d ds /\ d_unit d = e_unit e /\ d_g d = e_g e).
  { intros e J. apply Ie in J. apply (in_map ekey) in J. rewrite <- K3 in J. apply in_map_iff in J as (d & E & J). unfold dkey, ekey in E. injection E as E1 E2. eauto. }
  (* the implementation sections *)
  destruct I3 as [Mn3 Dn3 Fa3 _ _ Ap3 Cr3 Nu3 Nn3 [Ln3 Lc3] Be3].
  destruct (pass_3 m pc all at_ s0 q m0 text (after_clause (Some l) program_scope) ws us l pa po ds [] h3) as (ps & h4 & R4 & I4).
  { constructor; auto.
    - eapply Forall_impl; [|exact Fa3]. intros d (A & _). cbn beta. lia.
    - cbn [app]. rewrite app_nil_r in Nn3. exact Nn3.
    - intros v u J. rewrite Cb in J. apply in_map_iff in J as (e & [= <- <-] & J). destruct (Hk e J) as (d & Jd & E1 & E2). exists d. split; [exact Jd|]. split; [exact E1|]. now rewrite E2. }
  cbn [app] in I4. destruct I4 as [Mn4 Fi4 _ _ _ _ _ _]. rewrite Forall_forall in Fi4.
  assert (Ff : forall e, In e es -> exists a, finished at_ h4 (e_unit e) (e_g e) a).
  { intros e J. destruct (Hk e J) as (d & Jd & E1 & E2). exists (d_a d). rewrite <- E1, <- E2. now apply Fi4. }
  (* the end *)
  destruct (ending at_ all us l pc pa s0 text ws q m0 (after_clause (Some l) program_scope) po h4 Mn4 Dn Dl It Pm) as (h' & local & rest & R5 & I5 & Pg & Cx & Ti & Ca & Th & Ft & Ll & Fn).
  { apply forall2_pairs; [rewrite Ea; unfold at_; now rewrite !map_length|]. intros v u J. rewrite Cb in J. apply in_map_iff in J as (e & [= <- <-] & J). destruct (Ff e J) as (a & Fe).
    pose proof (finished_bound _ _ _ _ _ Fe) as La. destruct Fe as (o & l' & A1 & A2 & _ & _ & A5 & A6). exists o, a. split; [exact A1|]. split; [exact A2|]. split; [eapply answers_gives; eauto|exact La]. }
  exists h', at_, local, rest. split; [|split; [exact I5|split; [exact Pg|split; [exact Cx|split; [exact Ti|split; [exact Ca|split; [exact Th|split; [exact Ft|split; [exact Dn|]]]]]]]]].
  - unfold load_units. rewrite R1, R2. cbn [rbind]. rewrite So, R3. cbn [rbind]. rewrite R4. cbn [rbind].
    replace (map up_unit (map e_p es)) with at_ by (unfold at_; rewrite map_map; reflexivity). exact R5.
  - rewrite Ea. rewrite <- Pc, <- Eg, combine_maps. apply (forall2_maps _ e_unit (fun e => (g_unit (e_g e), g_path (e_g e)))).
    intros e J. destruct (Ff e J) as (a & Fe). exists (e_g e), a. split; [reflexivity|]. split; [reflexivity|]. split; [pose proof (finished_bound _ _ _ _ _ Fe); lia|apply Fn; exact Fe].
Qed.

Theorem program_with_units_round_trip :
  forall files sep order topo path st p (xs : list (style * unit_source)) fuel,
    iterates order -> toposort_ok topo -> good_program files sep fuel path st p xs ->
    exists pa pc h at_ o,
      parse_program (recs_at fuel) files sep order topo path = ROk (pa, pc) h /\
      nth_error (h_ctxs h) pc = Some o /\ cx_kind o = KProgram at_ /\
      program_says h pa at_ path sep p (map snd xs).
Proof.
  intros files sep order topo path st p xs fuel Io To ((text & F & ls & rest & W & E & L) & (NE & Dl & Fr) & Fx & NC & Gx & Gb).
  unfold parse_program. rewrite F. set (h0 := fst (new_program_context heap0 path)). change (new_program_context heap0 path) with (h0, 0).
  cbv iota beta. destruct (stands_start text ls 0 [] h0 W) as (s & N & St & Ec & Ep & Eh). change (run Next ?x) with (next_token x). rewrite N.
  rewrite E in St. unfold write_program in St. cbn [app] in St. rewrite <- !app_assoc in St. cbn [app] in St. cbn [clause_names] in Dl, Fr.
  assert (NE' : ps_uses p <> []) by (intros X; apply NE; now rewrite X).
  assert (Ll : length (ps_uses p) <= S fuel /\ length (write_block st (ps_block p)) <= fuel).
  { apply (f_equal (@length _)) in E. rewrite map_length in E. unfold write_program in E. cbn [app length] in E. rewrite !app_length in E. cbn [length] in E.
    assert (length (ps_uses p) <= length (write_uses (ps_uses p))); [|lia]. unfold write_uses. cbn [length]. rewrite app_length.
    pose proof (commas_count write_uses_item (ps_uses p)) as C. assert (length (ps_uses p) <= length (commas (map write_uses_item (ps_uses p)))); [|lia].
    apply C. rewrite Forall_forall. intros x _. unfold write_uses_item. discriminate. }
  destruct Ll as [Ll Lb]. set (l := ps_uses p) in *.
  destruct (block_first st (ps_block p) _ Gb) as (x & ws & Eb & Jx).
  set (tail := write_block st (ps_block p) ++ wsym "." :: rest ++ [weof]) in *.
  assert (H : wp (parse_program_head (recs_at fuel) 0) s (fun r s1 => exists us, r = (0, Some us) /\ exists i, h_progs (s_heap s1) = [mkProg path i None DNil] /\ i_name i = ps_name p /\
     uses_say (s_heap s1) us l /\ in_scope text (after_clause (Some l) program_scope) s1 tail)).
  { destruct (stands_cur _ _ _ _ St) as (t0 & C0 & W0 & _).
    unfold parse_program_head. apply wp_bind. eapply wp_expect; [exact C0|rewrite kw_w, W0; reflexivity|].
    apply wp_bind. eapply wp_expect_next; [exact St|intros t W1; rewrite type_w, W1; reflexivity|]. intros t s1 _ Wt St1 (Sc1 & Sp1 & Sh1).
    eapply d_onheap.
    { replace (ctx_path (s_heap s1) 0) with (Some path) by (rewrite <- Sh1, Eh; reflexivity). rewrite <- Sh1, Eh. reflexivity. }
    apply (stands_with_heap text (with_progs (h_progs h0 ++ [mkProg path (new_ident t) None DNil]) h0)) in St1.
    apply wp_bind. eapply wp_expect_next; [exact St1|intros t1 W1; rewrite sym_w, W1; reflexivity|]. intros t1 s2 _ _ St2 (Sc2 & Sp2 & Sh2).
    apply wp_bind. eapply wp_next; [exact St2|unfold write_uses; discriminate|]. intros t2 s3 _ _ St3 (Sc3 & Sp3 & Sh3).
    assert (I : in_scope text program_scope s3 (write_uses l ++ tail)).
    { apply (program_start text path); rewrite <- ?Sh3, <- ?Sh2, <- ?Sc3, <- ?Sc2; try reflexivity; [|exact St3]. cbn [s_ctx with_heap]. now rewrite <- Sc1, Ec. }
    assert (Et : tail = wkey x :: ws ++ wsym "." :: rest ++ [weof]) by (unfold tail; now rewrite Eb).
    pose proof I as I'. unfold write_uses in I'. cbn [app] in I'.
    eapply (d_is text _ s3 _ (kw "USES") true); [exact I'|intros t3 W3; rewrite kw_w, W3; reflexivity|].
    rewrite Et in I. fl. eapply (d_uses_clause text fuel l); [exact NE'|exact Dl|exact Fr|exact Ll|exact I|]. intros us s4 Su _ Rn _ I4 _. fl. apply wp_ret. exists us. split; [reflexivity|].
    exists (new_ident t). split; [|split; [apply wident_inv in Wt as [_ Rt]; exact Rt|split; [exact Su|rewrite Et; exact I4]]].
    destruct Rn as (lu & V). rewrite (ev_progs _ _ V). cbn [with_heap s_heap]. change (h_progs (with_uses (h_uses (s_heap s3) ++ lu) (s_heap s3))) with (h_progs (s_heap s3)). rewrite <- Sh3, <- Sh2. reflexivity. }
  apply wp_elim in H as (r & s1 & R1 & us & -> & i & Pg & Ni & Su & I).
  destruct (still_program_head _ 0 s (0, Some us) s1 R1) as (Sc & Sx & lu & Slu & Ulu).
  unfold parse_program_at. rewrite R1. cbn [on_parser rbind].
  destruct (loaded files sep order topo fuel 0 0 s1 text tail (Some path) 0 l (mkProg path i None DNil) us xs (s_heap s1) Io To) as (h' & at_ & local & rst & R2 & I2 & Pg2 & Cx2 & Ti & Ca & Th & Ft & Dn & Fi); auto.
  { rewrite Sx, Eh. reflexivity. }
  { congruence. }
  { rewrite with_same_heap. exact I. }
  { apply (says_listed _ (Some us) (Some l)). exact Su. }
  { rewrite Slu, Eh. exact Ulu. }
  { now rewrite Pg. }
  rewrite R2. cbn [rbind]. cbn [pr_ident] in I2. rewrite Ni in I2. fold (block_scope (map snd xs) p) in I2. set (s2 := with_heap h' s1) in *.
  assert (H : wp (Bind (parse_block (recs_at fuel)) Ret) s2 (fun b' s3 => bare_block b' = bare_block (ps_block p) /\ stands text s3 (wsym "." :: rest ++ [weof]))).
  { eapply (blocks_at text st fuel (ps_block p) Lb); [exact I2|exact Gb|discriminate|]. intros b' s3 E3 I3. apply wp_ret. split; [exact E3|apply I3]. }
  apply run_of in H as (b' & s3 & R3 & Eb3 & St3).
  pose proof (context_anchored _ (sc_context _ _ _ _ I2)) as An.
  assert (Ev : evolved s2 s3) by (eapply ev_parse_block; [apply recs_at_evolve|exact An|exact R3]).
  pose proof (ev_progs _ _ Ev) as Pg3. change (h_progs (s_heap s2)) with (h_progs h') in Pg3. destruct (stands_cur _ _ _ _ St3) as (t0 & C0 & W0 & _).
  set (po := mkProg path i (Some (mkProgramBlock (Some us) b')) (DImpl local)).
  set (h4 := with_progs (set_nth 0 po (h_progs (s_heap s3))) (s_heap s3)).
  assert (H : wp (parse_program_rest (recs_at fuel) 0 (Some us)) s2 (fun r s4 => r = 0 /\ s_heap s4 = h4)).
  { unfold parse_program_rest. apply wp_bind. eapply wp_run; [exact R3|]. eapply d_onheap; [rewrite Pg3, Pg2; reflexivity|].
    apply wp_bind. eapply wp_expect; [exact C0|rewrite sym_w, W0; reflexivity|]. apply wp_ret. split; [reflexivity|]. unfold h4, po. cbn [with_heap s_heap]. now rewrite Pg3. }
  apply wp_elim in H as (r & s4 & R4 & -> & E4). fold s2. rewrite R4. cbn [on_parser rbind fst snd]. rewrite E4.
  assert (Sc1 : s_ctx s2 = 0) by (cbn; congruence).
  destruct (ev_kinds _ _ Ev 0 _ Cx2) as (o & Eo & Ko & _). exists 0, 0, h4, at_, o. split; [reflexivity|]. split; [exact Eo|]. split; [exact Ko|].
  pose proof (moved_frame 0 (length (h_units h')) s2 s3 (evolved_moved 0 _ _ _ An Ev)) as Fr3. cbn [s2 with_heap s_heap] in Fr3.
  assert (Fr4 : frame (fun a => ~ away a s2) (fun c => c = s_ctx s2 \/ c = 0) (eq (length (h_units h'))) h' (s_heap s3)).
  { apply Fr3. intros o1 E1. apply nth_lt in E1. lia. }
  assert (Ft3 : fits at_ (s_heap s3)) by (eapply (fits_more at_ _ _ _ h' (s_heap s3) []); [exact Fr4|exact Th|rewrite app_nil_r; exact (ev_uses _ _ Ev)|constructor|exact Ft]).
  assert (Ca3 : called at_ (map snd xs) (s_heap s3)) by (eapply called_frame; [exact Fr4|exact Th|exact Ca]).
  assert (Ca4 : called at_ (map snd xs) h4) by exact Ca3.
  assert (Ti3 : clause_tied at_ (s_heap s3) (Some us) (Some l)) by (eapply clause_tied_frame; [exact Fr4|exact Th|exact Ft3|exact Ti]).
  split.
  - exists i, us, b', (DImpl local). split; [|split; [exact Ni|split; [exact Eb3|]]].
    + change (h_progs h4) with (set_nth 0 po (h_progs (s_heap s3))). apply nth_set_nth_eq. rewrite Pg3. eapply nth_lt; eauto.
    + apply clause_tied_linked; [exact Dn|exact Ca4|exact Ti3].
  - eapply Forall2_imp; [|exact Fi]. intros v [u path'] (g & a & E5 & E6 & Na & Fn). cbn [fst snd] in E5, E6. subst u path'.
    apply (finished_linked at_ (map snd xs) h4 v g a Dn Ca4).
    assert (Fn3 : finished at_ (s_heap s3) v g a).
    { eapply finished_frame; [exact Fr4|exact Th|exact Ft3| | |exact Fn].
      - intros X. apply X. intros o1 E1 T1. cbn [s2 with_heap s_heap s_ctx] in E1. change (s_ctx s2) with (s_ctx s1) in Sc1. rewrite Sc1, Cx2 in E1. injection E1 as <-. cbn in T1. congruence.
      - intros X. destruct Fn as (o1 & _ & E1 & _). apply nth_lt in E1. lia. }
    exact Fn3.
Qed.
End WithUnicode.
