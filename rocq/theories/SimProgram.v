(** The relation of SimFacts for programs: several parsers and one heap. *)
From Coq Require Import String List NArith Bool Arith Lia.
From Verif Require Import Runes UnicodeFacts Token Tokenizer CursorFacts TokenizerFacts ListUtil LexSpec LexMain Ast Ext
  Heap Classes Prog ParseSpec Parser RunFacts Units CaseSpec SimFacts SimHeap SimMain SimParse SimUnits.
Import ListNotations.
Local Open Scope list_scope.

Section WithUnicode.
Context {U : Unicode} {UOK : UnicodeOk U}.

(** ** Results *)
Definition rel {A B} (Q : A -> B -> Prop) (r1 : result A) (r2 : result B) : Prop :=
  match r1, r2 with
  | RStuck, _ => True
  | ROk a1 h1, ROk a2 h2 => Q a1 a2 /\ norm h1 = norm h2
  | RErr e1 h1, RErr e2 h2 => norm e1 = norm e2 /\ norm h1 = norm h2
  | RPanic, RPanic | RHang, RHang => True
  | _, _ => False
  end.
Lemma rbind_rel {A B C D} (Q : A -> B -> Prop) (P : C -> D -> Prop) r1 r2 k1 k2 : rel Q r1 r2 ->
  (forall a b (h1 h2 : heap), Q a b -> norm h1 = norm h2 -> rel P (k1 a h1) (k2 b h2)) ->
  rel P (rbind r1 k1) (rbind r2 k2).
Proof.
  intros E K. destruct r1, r2; cbn [rel rbind] in *; try contradiction; auto. destruct E. now apply K.
Qed.
Definition at_pst {A} {SA : Sim A} (x y : A * pst) : Prop := sim (fst x) (fst y) /\ ssim (snd x) (snd y).
Lemma on_parser_rel {A} {SA : Sim A} (o1 o2 : outcome A) : osim o1 o2 -> rel at_pst (on_parser o1) (on_parser o2).
Proof.
  destruct o1, o2; cbn [osim on_parser rel]; try contradiction; auto; intros [E S]; split; auto; try apply S. now split.
Qed.
Lemma each_of_rel {A B C D} (P : A -> B -> Prop) (Q : C -> D -> Prop) f1 f2 :
  (forall a b (h1 h2 : heap), P a b -> norm h1 = norm h2 -> rel Q (f1 a h1) (f2 b h2)) ->
  forall l1 l2 (h1 h2 : heap), Forall2 P l1 l2 -> norm h1 = norm h2 -> rel (Forall2 Q) (each_of f1 l1 h1) (each_of f2 l2 h2).
Proof.
  intros F l1 l2 h1 h2 L. revert h1 h2. induction L as [|a b l1 l2 E L IH]; intros h1 h2 Hh; cbn [each_of].
  - now split.
  - eapply rbind_rel; [now apply F|]. intros c d g1 g2 CD G. eapply rbind_rel; [now apply IH|].
    intros cs ds k1 k2 CDs K. split; auto.
Qed.

(** ** Parsers of units *)
Definition upsim (p1 p2 : uparser) : Prop :=
  ksim (up_tok p1) (up_tok p2) /\ osim_tok (up_cur p1) (up_cur p2) /\ up_ctx p1 = up_ctx p2 /\
  Forall2 post_sim (up_post p1) (up_post p2) /\ up_uc p1 = up_uc p2 /\ up_unit p1 = up_unit p2.
Lemma up_pst_sim p1 p2 (h1 h2 : heap) : upsim p1 p2 -> norm h1 = norm h2 -> ssim (up_pst p1 h1) (up_pst p2 h2).
Proof. intros (K & C & X & Po & _) E. exact (conj K (conj C (conj X (conj Po E)))). Qed.
Lemma up_of_sim s1 s2 uc u : ssim s1 s2 -> upsim (up_of s1 uc u) (up_of s2 uc u).
Proof. intros (K & C & X & Po & E). exact (conj K (conj C (conj X (conj Po (conj eq_refl eq_refl))))). Qed.

Lemma up_name_sim (h1 h2 : heap) p1 p2 : norm h1 = norm h2 -> upsim p1 p2 -> to_lower (up_name h1 p1) = to_lower (up_name h2 p2).
Proof. intros E (_ & _ & _ & _ & _ & Un). unfold up_name. rewrite Un. now apply unit_name_sim. Qed.
Lemma up_uses_sim (h1 h2 : heap) p1 p2 : norm h1 = norm h2 -> upsim p1 p2 -> map to_lower (up_uses h1 p1) = map to_lower (up_uses h2 p2).
Proof.
  intros E (_ & _ & _ & _ & _ & Un). unfold up_uses. rewrite Un, (unit_intf_uses_sim _ _ _ E).
  destruct (unit_intf_uses h2 (up_unit p2)); [|reflexivity]. rewrite !map_map. apply map_ext. intro a. now apply uses_name_sim.
Qed.

Lemma unit_contexts_sim sep pc us : forall h1 h2 : heap, norm h1 = norm h2 ->
  fst (unit_contexts sep pc us h1) = fst (unit_contexts sep pc us h2) /\
  norm (snd (unit_contexts sep pc us h1)) = norm (snd (unit_contexts sep pc us h2)).
Proof.
  induction us as [|a us IH]; intros h1 h2 E; cbn [unit_contexts]; [now split|].
  assert (P : match nth_error (h_uses h1) a with Some o => effective_path sep o | None => [] end =
              match nth_error (h_uses h2) a with Some o => effective_path sep o | None => [] end).
  { pose proof (norm_nth _ _ a (nh_uses _ _ E)) as D.
    destruct (nth_error (h_uses h1) a) as [o1|], (nth_error (h_uses h2) a) as [o2|]; try discriminate D; auto.
    apply norm_some in D. unfold effective_path, unquoted_path. assert (Q : u_path o1 = u_path o2) by exact (f_equal u_path D).
    now rewrite Q. }
  rewrite P. set (path := match nth_error (h_uses h2) a with Some o => _ | None => _ end). clearbody path.
  destruct (runes_equal path []); [now apply IH|].
  assert (N : snd (new_unit_context h1 pc path) = snd (new_unit_context h2 pc path) /\
              norm (fst (new_unit_context h1 pc path)) = norm (fst (new_unit_context h2 pc path))).
  { unfold new_unit_context. destruct (new_chained_sim _ _ DEmbedded E) as [C1 C2].
    destruct (new_chained h1 DEmbedded) as [k1 m1], (new_chained h2 DEmbedded) as [k2 m2]. cbn [fst snd] in *. subst m2.
    rewrite (nh_ctxs _ _ C1). split; [reflexivity|]. now apply with_ctxs_sim. }
  destruct (new_unit_context h1 pc path) as [k1 c1], (new_unit_context h2 pc path) as [k2 c2]. cbn [fst snd] in N.
  destruct N as [-> N]. specialize (IH _ _ N).
  destruct (unit_contexts sep pc us k1), (unit_contexts sep pc us k2). cbn [fst snd] in *. destruct IH as [-> IH]. now split.
Qed.

Lemma sort_units_sim {A B} (P : A -> B -> Prop) (n1 : A -> gostring) (n2 : B -> gostring) u1 u2 order topo l1 l2 :
  (forall a b, P a b -> to_lower (n1 a) = to_lower (n2 b)) -> (forall a b, P a b -> map to_lower (u1 a) = map to_lower (u2 b)) ->
  Forall2 P l1 l2 ->
  match sort_units n1 u1 order topo l1, sort_units n2 u2 order topo l2 with
  | Some a, Some b => Forall2 P a b
  | None, None => True
  | _, _ => False
  end.
Proof.
  intros N Us L.
  assert (A1 : unit_names n1 u1 l1 = unit_names n2 u2 l2).
  { unfold unit_names. f_equal. induction L as [|a b l1 l2 E L IH]; cbn [flat_map]; [reflexivity|]. now rewrite IH, (N _ _ E), (Us _ _ E). }
  assert (A2 : unit_edges n1 u1 l1 = unit_edges n2 u2 l2).
  { clear A1. unfold unit_edges. induction L as [|a b l1 l2 E L IH]; cbn [flat_map]; [reflexivity|]. rewrite IH. apply (f_equal (fun x => x ++ _)).
    specialize (Us _ _ E). rewrite (N _ _ E). generalize dependent (u2 b). clear. intro ys. revert ys.
    induction (u1 a) as [|x xs IH]; intros [|y ys] E; cbn [map] in *; try discriminate E; [reflexivity|].
    injection E as E1 E2. now rewrite E1, (IH _ E2). }
  assert (A3 : forall n, match unit_of_name n1 l1 n, unit_of_name n2 l2 n with Some a, Some b => P a b | None, None => True | _, _ => False end).
  { clear A1 A2. intro n. unfold unit_of_name. assert (R : Forall2 P (rev l1) (rev l2)).
    { clear -L. induction L; cbn; [constructor|]. apply Forall2_app; auto. }
    induction R as [|a b r1 r2 E R IH]; cbn [find]; [exact I|]. rewrite (N _ _ E). destruct (runes_equal _ n); auto. }
  unfold sort_units. rewrite A1, A2. destruct (topo _ _) as [names|]; [|exact I].
  induction names as [|n names IH]; cbn [flat_map]; [constructor|]. apply Forall2_app; auto. specialize (A3 n).
  destruct (unit_of_name n1 l1 n), (unit_of_name n2 l2 n); try contradiction; auto.
Qed.

Lemma with_progs_sim (h1 h2 : heap) l1 l2 : norm h1 = norm h2 -> norm l1 = norm l2 -> norm (with_progs l1 h1) = norm (with_progs l2 h2).
Proof.
  intros E L. unfold with_progs. rewrite (nh_refs _ _ E), (nh_ctxs _ _ E).
  apply nh_intro; auto using nh_maps, nh_decls, nh_fwds, nh_uses, nh_units, nh_progs.
Qed.
Lemma progobj_intro p i1 i2 b1 b2 m : norm i1 = norm i2 -> norm b1 = norm b2 -> norm (mkProg p i1 b1 m) = norm (mkProg p i2 b2 m).
Proof. intros A B. exact (f_equal2 (fun i b => mkProg p i b m) A B). Qed.
Lemma progobj_inv o1 o2 : norm o1 = norm o2 ->
  pr_path o1 = pr_path o2 /\ norm (pr_ident o1) = norm (pr_ident o2) /\ norm (pr_block o1) = norm (pr_block o2) /\ pr_map o1 = pr_map o2.
Proof. intro E. exact (conj (f_equal pr_path E) (conj (f_equal pr_ident E) (conj (f_equal pr_block E) (f_equal pr_map E)))). Qed.

Lemma find_name_sim (h1 h2 : heap) us n1 n2 : norm h1 = norm h2 -> to_lower n1 = to_lower n2 ->
  find_name (uses_name h1) us n1 = find_name (uses_name h2) us n2.
Proof. intros E N. apply find_nat_sim; auto. intro a. now apply uses_name_sim. Qed.

Lemma name_units_sim us m l : forall h1 h2 : heap, norm h1 = norm h2 -> rel eq (name_units us m l h1) (name_units us m l h2).
Proof.
  induction l as [|u l IH]; intros h1 h2 E; cbn [name_units]; [now split|].
  rewrite (find_name_sim _ _ us _ _ E (unit_name_sim _ _ u E)). destruct (find_name _ us _) as [a|]; [|now split].
  set (k1 := uses_put_unit h1 a u). set (k2 := uses_put_unit h2 a u).
  assert (K : norm k1 = norm k2) by now apply uses_put_unit_sim. clearbody k1 k2.
  pose proof (norm_nth _ _ a (nh_uses _ _ K)) as D.
  destruct (nth_error (h_uses k1) a) as [o1|], (nth_error (h_uses k2) a) as [o2|]; try discriminate D; [|exact I]. apply norm_some in D.
  pose proof (map_set_sim k1 k2 m [mkDecl (u_ident o1) (NUses a)] [mkDecl (u_ident o2) (NUses a)] K
    (one_decl _ _ _ (f_equal u_ident D))) as V.
  destruct (map_set k1 m _), (map_set k2 m _); cbn [set_sim] in V; try contradiction; [now apply IH|now apply IH|exact I].
Qed.

Section Program.
Context (R1 R2 : recs) (RS : rsim R1 R2) (files1 files2 : gostring -> option (list rune)) (FA : files_agree files1 files2).
Context (sep : rune) (order : string_set -> list gostring)
  (topo : list gostring -> list (gostring * gostring) -> option (list gostring)).
Let fuel_le := fuel_sim _ _ RS.
#[local] Hint Resolve fuel_le set_uses_sim parse_uses_item_sim parse_uses_next_sim parse_block_sim : psim.

Lemma ksim_texts text1 text2 : texts_agree text1 text2 -> ksim (new_tokenizer text1 false false) (new_tokenizer text2 false false).
Proof. intro T. split; [exact T|]. split; [exists text1|exists text2]; constructor. Qed.
Lemma ssim_texts text1 text2 c (h1 h2 : heap) : texts_agree text1 text2 -> norm h1 = norm h2 ->
  ssim (mkPst (new_tokenizer text1 false false) None c [] h1) (mkPst (new_tokenizer text2 false false) None c [] h2).
Proof. intros T E. exact (conj (ksim_texts _ _ T) (conj I (conj eq_refl (conj (Forall2_nil _) E)))). Qed.

Lemma load_unit_sim pc cp (h1 h2 : heap) : norm h1 = norm h2 ->
  rel upsim (load_unit R1 files1 pc cp h1) (load_unit R2 files2 pc cp h2).
Proof.
  intro E. destruct cp as [uc path]. unfold load_unit. pose proof (FA path) as F.
  destruct (files1 path) as [t1|], (files2 path) as [t2|]; try contradiction; [|now split].
  eapply rbind_rel.
  - apply on_parser_rel.
    assert (P : psim (Bind Next (fun _ => parse_ident_and_intf_uses R1 uc)) (Bind Next (fun _ => parse_ident_and_intf_uses R2 uc))).
    { eapply psim_bind; [apply psim_next|]. intros. now apply parse_ident_and_intf_uses_sim. }
    apply P. now apply ssim_texts.
  - intros [u1 s1] [u2 s2] g1 g2 [A S] G. cbn [fst snd] in *. change (u1 = u2) in A. subst u2.
    split; [now apply up_of_sim|now apply add_unit_sim].
Qed.
Lemma intf_of_sim p1 p2 (h1 h2 : heap) : upsim p1 p2 -> norm h1 = norm h2 -> rel upsim (intf_of R1 p1 h1) (intf_of R2 p2 h2).
Proof.
  intros P E. unfold intf_of. pose proof P as (_ & _ & _ & _ & -> & ->). eapply rbind_rel.
  - apply on_parser_rel. apply process_intf_body_sim; auto. now apply up_pst_sim.
  - intros [u1 s1] [u2 s2] g1 g2 [A S] G. cbn [fst snd] in *. split; [now apply up_of_sim|auto].
Qed.
Lemma impl_of_sim p1 p2 (h1 h2 : heap) : upsim p1 p2 -> norm h1 = norm h2 -> rel upsim (impl_of R1 p1 h1) (impl_of R2 p2 h2).
Proof.
  intros P E. unfold impl_of. pose proof P as (_ & _ & _ & _ & -> & ->). eapply rbind_rel.
  - apply on_parser_rel. apply process_impl_and_init_sim; auto. now apply up_pst_sim.
  - intros [u1 s1] [u2 s2] g1 g2 [A S] G. cbn [fst snd] in *. split; [now apply up_of_sim|auto].
Qed.
Lemma load_units_sim pc pa us (h1 h2 : heap) : norm h1 = norm h2 ->
  rel eq (load_units R1 files1 sep order topo pc pa us h1) (load_units R2 files2 sep order topo pc pa us h2).
Proof.
  intro E. unfold load_units. pose proof (unit_contexts_sim sep pc us _ _ E) as C.
  destruct (unit_contexts sep pc us h1) as [cps1 k1], (unit_contexts sep pc us h2) as [cps2 k2]. cbn [fst snd] in C.
  destruct C as [-> C]. eapply rbind_rel.
  { eapply each_of_rel with (P := eq); [|clear; induction cps2; constructor; auto|exact C].
    intros a b g1 g2 -> G. now apply load_unit_sim. }
  intros ps1 ps2 g1 g2 PS G.
  assert (PU : map up_unit ps1 = map up_unit ps2).
  { clear -PS. induction PS as [|p1 p2 l1 l2 P PS IH]; cbn; [reflexivity|]. f_equal; [apply P|exact IH]. }
  pose proof (sort_units_sim upsim (up_name g1) (up_name g2) (up_uses g1) (up_uses g2) order topo ps1 ps2
    (fun a b => up_name_sim _ _ a b G) (fun a b => up_uses_sim _ _ a b G) PS) as Srt.
  destruct (sort_units (up_name g1) _ _ _ ps1) as [s1|], (sort_units (up_name g2) _ _ _ ps2) as [s2|]; try contradiction; [|now split].
  eapply rbind_rel; [eapply each_of_rel; [|exact Srt|exact G]; intros; now apply intf_of_sim|].
  intros s1' s2' a1 a2 SS A.
  eapply rbind_rel; [eapply each_of_rel; [|exact SS|exact A]; intros; now apply impl_of_sim|].
  intros _ _ b1 b2 _ B. destruct (new_map_sim _ _ B) as [M1 M2].
  destruct (new_map b1) as [c1 um1], (new_map b2) as [c2 um2]. cbn [fst snd] in M1, M2. subst um2.
  eapply rbind_rel; [rewrite PU; now apply name_units_sim|]. intros _ _ d1 d2 _ D.
  destruct (new_map_sim _ _ D) as [L1 L2]. destruct (new_map d1) as [e1 lo1], (new_map d2) as [e2 lo2]. cbn [fst snd] in L1, L2. subst lo2.
  rewrite (nh_ctxs _ _ L1). destruct (nth_error (h_ctxs e2) pc) as [co|]; [|exact I].
  pose proof (norm_nth _ _ pa (nh_progs _ _ L1)) as Pn.
  destruct (nth_error (h_progs e1) pa) as [o1|], (nth_error (h_progs e2) pa) as [o2|]; try discriminate Pn; [|exact I].
  apply norm_some, progobj_inv in Pn as (Pa & Pi & Pb & Pm). cbv zeta.
  rewrite PU, (units_maps_sim _ _ _ L1), Pa.
  set (ms := DComposite _). clearbody ms.
  assert (K : norm (ctx_put_map e1 pc ms) = norm (ctx_put_map e2 pc ms)) by now apply ctx_put_map_sim.
  set (v1 := with_progs _ _). set (v2 := with_progs _ _).
  assert (V : norm v1 = norm v2).
  { apply with_progs_sim; auto. apply norm_set_nth; [now apply progobj_intro|now apply nh_progs]. }
  clearbody v1 v2.
  pose proof (map_set_sim v1 v2 (DImpl lo1) [mkDecl (pr_ident o1) (NProgram pa)] [mkDecl (pr_ident o2) (NProgram pa)] V
    (one_decl _ _ _ Pi)) as W.
  destruct (map_set v1 _ _), (map_set v2 _ _); cbn [set_sim] in W; try contradiction; try exact I; split; auto. apply W.
Qed.

Lemma parse_program_head_sim pc : psim (parse_program_head R1 pc) (parse_program_head R2 pc).
Proof.
  unfold parse_program_head. go.
  apply psim_onheap. intros c h1 h2 E. rewrite (ctx_path_sim _ _ pc E). destruct (ctx_path h2 pc) as [p|]; [|exact I].
  split.
  - exact (norm_length _ _ (nh_progs _ _ E)).
  - apply with_progs_sim; auto. apply norm_app; [now apply nh_progs|]. apply cons_intro; [|reflexivity].
    apply progobj_intro; [|reflexivity]. leaf.
Qed.
Lemma parse_program_rest_sim pa l : psim (parse_program_rest R1 pa l) (parse_program_rest R2 pa l).
Proof.
  unfold parse_program_rest. go.
  apply psim_onheap. intros c h1 h2 E. pose proof (norm_nth _ _ pa (nh_progs _ _ E)) as D.
  destruct (nth_error (h_progs h1) pa) as [o1|], (nth_error (h_progs h2) pa) as [o2|]; try discriminate D; [|exact I].
  apply norm_some, progobj_inv in D as (Pa & Pi & _ & Pm). rewrite Pa, Pm. split; [reflexivity|].
  apply with_progs_sim; auto. apply norm_set_nth; [|now apply nh_progs]. apply progobj_intro; auto. apply some_intro.
  match goal with Hb : norm ?b1 = norm ?b2 |- norm (mkProgramBlock l ?b1) = _ => exact (f_equal (mkProgramBlock l) Hb)
  | Hb : sim ?b1 ?b2 |- _ => exact (f_equal (mkProgramBlock l) Hb) end.
Qed.
Lemma parse_program_at_sim pc s1 s2 : ssim s1 s2 ->
  rel eq (parse_program_at R1 files1 sep order topo pc s1) (parse_program_at R2 files2 sep order topo pc s2).
Proof.
  intro S. unfold parse_program_at. eapply rbind_rel; [apply on_parser_rel; now apply parse_program_head_sim|].
  intros [[pa1 l1] t1] [[pa2 l2] t2] h1 h2 [P T] E. cbn [fst snd] in P, T.
  apply pair_inv in P as [P1 P2]. apply plain_eq in P1, P2. subst pa2 l2. rename pa1 into pa2, l1 into l2.
  eapply rbind_rel with (Q := eq).
  { destruct l2; [now apply load_units_sim|now split]. }
  intros _ _ g1 g2 _ G. eapply rbind_rel.
  { apply on_parser_rel. apply parse_program_rest_sim. apply ssim_heap; auto. }
  intros [n1 v1] [n2 v2] k1 k2 [N V] K. cbn [fst snd] in *. split; [exact N|apply V].
Qed.
Lemma parse_program_sim path :
  rel eq (parse_program R1 files1 sep order topo path) (parse_program R2 files2 sep order topo path).
Proof.
  unfold parse_program. pose proof (FA path) as F.
  destruct (files1 path) as [t1|], (files2 path) as [t2|]; try contradiction; [|exact I].
  destruct (new_program_context heap0 path) as [h pc].
  pose proof (psim_next _ _ (ssim_texts t1 t2 pc h h F eq_refl)) as N.
  destruct (run Next _) as [a1 s1|e1 s1| | |], (run Next _) as [a2 s2|e2 s2| | |]; cbn [osim] in N; try contradiction; try exact I.
  - eapply rbind_rel; [apply parse_program_at_sim; apply N|]. intros n1 n2 h1 h2 -> E. now split.
  - destruct N as [N1 N2]. split; [exact N1|apply N2].
Qed.
End Program.
End WithUnicode.
