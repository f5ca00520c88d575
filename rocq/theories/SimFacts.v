(** A relation between runs of the same method: on texts that agree but for the case of
    their words, and with more fuel on the right. *)
From Coq Require Import String List NArith Bool Arith Lia.
From Verif Require Import Runes UnicodeFacts Token Tokenizer CursorFacts TokenizerFacts ListUtil LexSpec LexShape LexFacts
  LexMain Ast Ext Heap Classes Prog ParseSpec Parser RunFacts Units CaseSpec.
Import ListNotations.
Local Open Scope list_scope.

Section WithUnicode.
Context {U : Unicode} {UOK : UnicodeOk U}.

(** ** Tokens and streams *)
Definition tsim (t1 t2 : token) : Prop :=
  same_but_case t1 t2 /\ (exists text, token_of text t1) /\ (exists text, token_of text t2).
Definition osim_tok (a b : option token) : Prop :=
  match a, b with Some t1, Some t2 => tsim t1 t2 | None, None => True | _, _ => False end.
Definition ksim (k1 k2 : tokenizer) : Prop :=
  (forall n, agree_for n k1 k2) /\ (exists text, held text k1) /\ (exists text, held text k2).

Lemma ksim_next k1 k2 : ksim k1 k2 ->
  match get_next k1, get_next k2 with
  | GTok t1 k1', GTok t2 k2' => tsim t1 t2 /\ ksim k1' k2'
  | GNil k1', GNil k2' => ksim k1' k2'
  | GHang, GHang => True
  | _, _ => False
  end.
Proof.
  intros (A & (x1 & H1) & (x2 & H2)).
  assert (B : forall n, agree_for (S n) k1 k2) by (intro; apply A). cbn [agree_for] in B.
  destruct (get_next k1) as [t1 k1'|k1'|] eqn:G1, (get_next k2) as [t2 k2'|k2'|] eqn:G2; try exact (B 0); auto.
  - split; [|split].
    + split; [apply (B 0)|]. split; [exists x1; exists k1, k1'|exists x2; exists k2, k2']; auto.
    + intro n. apply (B n).
    + split; [exists x1|exists x2]; eauto using held_tok.
  - split; [exact B|]. split; [exists x1|exists x2]; eauto using held_nil.
Qed.

Lemma same_but_case_alike t1 t2 u1 u2 : same_but_case t1 t2 -> alike t1 u1 -> alike t2 u2 -> same_but_case u1 u2.
Proof. intros [T M] (A1 & B1 & _) (A2 & B2 & _). unfold same_but_case in *. rewrite <- A1, <- A2, <- B1, <- B2. auto. Qed.

Lemma held_wf text k : held text k -> cwf (tk_cur k).
Proof. intro Hh. apply (held_sim text k k Hh (same_spot_refl k)). Qed.

Lemma agree_spot n : forall k1 k2 l1 l2, agree_for n k1 k2 ->
  (exists text, held text k1) -> (exists text, held text k2) ->
  same_spot k1 l1 -> same_spot k2 l2 -> agree_for n l1 l2.
Proof.
  induction n as [|n IH]; intros k1 k2 l1 l2 A (x1 & H1) (x2 & H2) S1 S2; [exact I|].
  cbn [agree_for] in *.
  pose proof (get_next_alike _ _ S1 (held_wf _ _ H1)) as M1.
  pose proof (get_next_alike _ _ S2 (held_wf _ _ H2)) as M2.
  destruct (get_next k1) as [t1 k1'|k1'|] eqn:G1, (get_next k2) as [t2 k2'|k2'|] eqn:G2; try contradiction;
    destruct (get_next l1), (get_next l2); try contradiction; auto.
  - destruct A as [A1 A2]. destruct M1 as [M1 N1], M2 as [M2 N2]. split; [eauto using same_but_case_alike|].
    eapply IH; eauto using held_tok.
  - eapply IH; eauto using held_nil.
Qed.
Lemma ksim_clone k1 k2 : ksim k1 k2 -> ksim (tokenizer_clone k1) (tokenizer_clone k2).
Proof.
  intros (A & H1 & H2). split; [|split].
  - intro n. eapply agree_spot; eauto using same_spot_clone.
  - destruct H1 as (x & Hx). exists x. now constructor.
  - destruct H2 as (x & Hx). exists x. now constructor.
Qed.
Lemma tsim_clone t1 t2 : tsim t1 t2 -> tsim (token_clone t1) (token_clone t2).
Proof. now rewrite !token_clone_eq. Qed.

(** What is equal of two such tokens *)
Lemma tsim_type t1 t2 : tsim t1 t2 -> t_type t1 = t_type t2.
Proof. now intros [[T _] _]. Qed.
Lemma same_letters_refl a : same_letters a a.
Proof. now split. Qed.
Lemma tsim_letters t1 t2 : tsim t1 t2 -> same_letters (raw t1) (raw t2).
Proof. intros [[T M] _]. destruct (t_type t1); auto; rewrite M; apply same_letters_refl. Qed.
Lemma tsim_value_letters t1 t2 : tsim t1 t2 -> same_letters (value t1) (value t2).
Proof.
  intro T. pose proof (tsim_letters _ _ T) as L. pose proof (tsim_type _ _ T) as E. unfold value. rewrite <- E.
  destruct (t_type t1); auto. destruct L as [_ ->]. apply same_letters_refl.
Qed.
Lemma tsim_raw t1 t2 : tsim t1 t2 -> t_type t1 <> Identifier -> t_type t1 <> ReservedWord -> raw t1 = raw t2.
Proof. intros [[T M] _] A B. destruct (t_type t1); auto; congruence. Qed.
Lemma tsim_value t1 t2 : tsim t1 t2 -> t_type t1 <> Identifier -> value t1 = value t2.
Proof.
  intros T A. pose proof (tsim_letters _ _ T) as [_ L]. pose proof (tsim_type _ _ T) as E. unfold value. rewrite <- E.
  destruct (t_type t1) eqn:Ty; auto; apply tsim_raw; congruence.
Qed.

(** Words the code compares a text with, letter by letter *)
Definition fixed_word (s : gostring) : bool :=
  str_in s reserved_words || match s with c :: _ => (c <? 65)%N || ((90 <? c)%N && (c <? 95)%N) | [] => true end.

Lemma upper_fixed s : forallb (fun r => (r <? 97)%N) s = true -> to_upper s = s.
Proof.
  unfold to_upper. induction s as [|r s IH]; cbn [forallb map]; [reflexivity|]. intros E.
  apply andb_true_iff in E as [E1 E2]. rewrite IH by auto. f_equal. rewrite upper_ascii by lia.
  unfold between. destruct (97 <=? r)%N eqn:X; [lia|reflexivity].
Qed.
(* an identifier is never one of them *)
Lemma ident_not_fixed text t s : token_of text t -> t_type t = Identifier -> fixed_word s = true ->
  runes_equal (raw t) s = false.
Proof.
  intros Ht Ty F. destruct (runes_equal (raw t) s) eqn:E; auto. exfalso. apply runes_equal_eq in E. subst s.
  destruct (words_are_maximal text t Ht (or_introl Ty)) as [(r & w & E & WH & _) _].
  apply orb_true_iff in F as [F|F].
  - destruct (reserved_classification text t Ht (or_introl Ty)) as [C _].
    rewrite Ty in C. enough (X : Identifier = ReservedWord) by discriminate. apply C.
    clear C. unfold str_in in F. apply existsb_exists in F as (x & In_x & E2). apply runes_equal_eq in E2.
    rewrite E2, upper_fixed; [now rewrite in_rev, <- pascal_reserved_words|].
    assert (A : forallb (forallb (fun r => (r <? 97)%N)) reserved_words = true) by (vm_compute; reflexivity).
    rewrite forallb_forall in A. auto.
  - rewrite E in F. apply orb_true_iff in F as [F|F]; [|apply andb_true_iff in F as [F1 F2]];
      apply word_head_small in WH; unfold between in WH; lia.
Qed.

Lemma fixed_value t1 t2 s : tsim t1 t2 -> fixed_word s = true -> runes_equal (value t1) s = runes_equal (value t2) s.
Proof.
  intros T F. destruct (ttype_eqb (t_type t1) Identifier) eqn:E.
  - assert (Ty : t_type t1 = Identifier) by (destruct (t_type t1); discriminate || reflexivity).
    pose proof (tsim_type _ _ T) as Ty2. rewrite Ty in Ty2. symmetry in Ty2. destruct T as (_ & (x1 & T1) & (x2 & T2)).
    unfold value. rewrite Ty, Ty2. now rewrite (ident_not_fixed x1), (ident_not_fixed x2).
  - rewrite (tsim_value t1 t2); auto. intro Ty. rewrite Ty in E. discriminate.
Qed.

(** ** Predicates *)
Definition resp (p : predicator) : Prop := forall t1 t2, tsim t1 t2 -> p t1 = p t2.
Definition resp_opt (p : option predicator) : Prop := match p with Some p => resp p | None => True end.
Lemma resp_type ty : resp (p_type ty).
Proof. intros t1 t2 T. unfold p_type. now rewrite (tsim_type _ _ T). Qed.
Lemma resp_symbol s : resp (p_symbol s).
Proof.
  intros t1 t2 T. unfold p_symbol. rewrite <- (tsim_type _ _ T). destruct (ttype_eqb (t_type t1) SpecialSymbol) eqn:E; auto.
  cbn. rewrite (tsim_raw t1 t2); auto; intro X; rewrite X in E; discriminate.
Qed.
Lemma resp_sym s : resp (sym s).
Proof. apply resp_symbol. Qed.
Lemma resp_keyword w : resp (p_keyword ReservedWord w).
Proof.
  intros t1 t2 T. unfold p_keyword. rewrite <- (tsim_type _ _ T). destruct (ttype_eqb (t_type t1) ReservedWord) eqn:E; auto.
  cbn. rewrite (tsim_value t1 t2); auto; intro X; rewrite X in E; discriminate.
Qed.
Lemma resp_kw w : resp (kw w).
Proof. apply resp_keyword. Qed.
Lemma resp_symtext w : resp (p_has_text SpecialSymbol w).
Proof.
  intros t1 t2 T. unfold p_has_text. rewrite <- (tsim_type _ _ T). destruct (ttype_eqb (t_type t1) SpecialSymbol) eqn:E; auto.
  cbn. rewrite (tsim_value t1 t2); auto; intro X; rewrite X in E; discriminate.
Qed.
Lemma resp_upper w : resp (p_upper w).
Proof. intros t1 t2 T. unfold p_upper. now rewrite (proj2 (tsim_value_letters _ _ T)). Qed.
Lemma resp_upper_is w : resp (upper_is w).
Proof. apply resp_upper. Qed.
Lemma resp_dirset l : resp (p_directive_set l).
Proof. intros t1 t2 T. unfold p_directive_set. now rewrite (proj2 (tsim_letters _ _ T)). Qed.
Lemma resp_directive : resp p_directive.
Proof. apply resp_dirset. Qed.
Lemma resp_portability : resp p_portability.
Proof. apply resp_dirset. Qed.
Lemma resp_value s : fixed_word s = true -> resp (p_value s).
Proof. intros F t1 t2 T. unfold p_value. now apply fixed_value. Qed.
Lemma resp_some_nil : resp (p_some []).
Proof. now intros t1 t2 T. Qed.
Lemma resp_some_cons p l : resp p -> resp (p_some l) -> resp (p_some (p :: l)).
Proof. intros P L t1 t2 T. cbn [p_some]. now rewrite (P _ _ T), (L _ _ T). Qed.
Lemma resp_not p : resp p -> resp (p_not p).
Proof. intros P t1 t2 T. unfold p_not. now rewrite (P _ _ T). Qed.

(** ** Relations per type *)
Class Sim (A : Type) := sim : A -> A -> Prop.
#[export] Instance sim_token : Sim token | 0 := tsim.
#[export] Instance sim_otoken : Sim (option token) | 0 := osim_tok.
#[export] Instance sim_fun {A} {NA : Norm A} : Sim (bool -> A) | 0 := fun f g => forall b, norm (f b) = norm (g b).
#[export] Instance sim_norm {A} {NA : Norm A} : Sim A | 20 := fun a b => norm a = norm b.

Definition post_sim (a b : nat * gostring) : Prop := fst a = fst b /\ same_letters (snd a) (snd b).
Definition ssim (s1 s2 : pst) : Prop :=
  ksim (s_tok s1) (s_tok s2) /\ osim_tok (s_cur s1) (s_cur s2) /\ s_ctx s1 = s_ctx s2 /\
  Forall2 post_sim (s_post s1) (s_post s2) /\ norm (s_heap s1) = norm (s_heap s2).
Definition osim {A} {SA : Sim A} (o1 o2 : outcome A) : Prop :=
  match o1, o2 with
  | OStuck, _ => True
  | OOk a1 s1, OOk a2 s2 => sim a1 a2 /\ ssim s1 s2
  | OErr e1 s1, OErr e2 s2 => norm e1 = norm e2 /\ ssim s1 s2
  | OPanic, OPanic | OHang, OHang => True
  | _, _ => False
  end.
Definition psim {A} {SA : Sim A} (p1 p2 : prog A) : Prop :=
  forall s1 s2, ssim s1 s2 -> osim (run p1 s1) (run p2 s2).
Definition hsim {A} {SA : Sim A} (o1 o2 : hres A) : Prop :=
  match o1, o2 with
  | HStuck, _ => True
  | HOk a1 h1, HOk a2 h2 => sim a1 a2 /\ norm h1 = norm h2
  | HErr e1 h1, HErr e2 h2 => norm e1 = norm e2 /\ norm h1 = norm h2
  | HPanic, HPanic => True
  | _, _ => False
  end.

(** Equal parts of related heaps *)
Lemma nh_maps h1 h2 : norm h1 = norm h2 -> h_maps h1 = h_maps h2.
Proof. intro E. exact (f_equal h_maps E). Qed.
Lemma nh_decls h1 h2 : norm h1 = norm h2 -> norm (h_decls h1) = norm (h_decls h2).
Proof. intro E. exact (f_equal h_decls E). Qed.
Lemma nh_refs h1 h2 : norm h1 = norm h2 -> h_refs h1 = h_refs h2.
Proof. intro E. exact (f_equal h_refs E). Qed.
Lemma nh_fwds h1 h2 : norm h1 = norm h2 -> norm (h_fwds h1) = norm (h_fwds h2).
Proof. intro E. exact (f_equal h_fwds E). Qed.
Lemma nh_uses h1 h2 : norm h1 = norm h2 -> norm (h_uses h1) = norm (h_uses h2).
Proof. intro E. exact (f_equal h_uses E). Qed.
Lemma nh_units h1 h2 : norm h1 = norm h2 -> norm (h_units h1) = norm (h_units h2).
Proof. intro E. exact (f_equal h_units E). Qed.
Lemma nh_progs h1 h2 : norm h1 = norm h2 -> norm (h_progs h1) = norm (h_progs h2).
Proof. intro E. exact (f_equal h_progs E). Qed.
Lemma nh_ctxs h1 h2 : norm h1 = norm h2 -> h_ctxs h1 = h_ctxs h2.
Proof. intro E. exact (f_equal h_ctxs E). Qed.
Lemma nh_intro a1 a2 b1 b2 c d1 d2 e1 e2 f1 f2 g1 g2 i : a1 = a2 -> norm b1 = norm b2 ->
  norm d1 = norm d2 -> norm e1 = norm e2 -> norm f1 = norm f2 -> norm g1 = norm g2 ->
  norm (mkHeap a1 b1 c d1 e1 f1 g1 i) = norm (mkHeap a2 b2 c d2 e2 f2 g2 i).
Proof. intros -> B D E F G. unfold norm at 1 2, norm_heap. cbn [h_maps h_decls h_refs h_fwds h_uses h_units h_progs h_ctxs]. congruence. Qed.

(** Lists *)
Lemma norm_nth {A} {NA : Norm A} (l1 l2 : list A) n : norm l1 = norm l2 -> norm (nth_error l1 n) = norm (nth_error l2 n).
Proof.
  intro E. change (option_map norm (nth_error l1 n) = option_map norm (nth_error l2 n)).
  rewrite <- !nth_error_map. now rewrite (E : map norm l1 = map norm l2).
Qed.
Lemma norm_length {A} {NA : Norm A} (l1 l2 : list A) : norm l1 = norm l2 -> length l1 = length l2.
Proof. intro E. rewrite <- (map_length norm l1), <- (map_length norm l2). now rewrite (E : map norm l1 = map norm l2). Qed.
Lemma norm_app {A} {NA : Norm A} (l1 l2 m1 m2 : list A) : norm l1 = norm l2 -> norm m1 = norm m2 -> norm (l1 ++ m1) = norm (l2 ++ m2).
Proof. intros E F. change (map norm (l1 ++ m1) = map norm (l2 ++ m2)). rewrite !map_app. change (norm l1 ++ norm m1 = norm l2 ++ norm m2). congruence. Qed.
Lemma map_set_nth {A B} (f : A -> B) n v l : map f (set_nth n v l) = set_nth n (f v) (map f l).
Proof. revert n. induction l as [|x l IH]; intros [|n]; cbn; auto. now rewrite IH. Qed.
Lemma norm_set_nth {A} {NA : Norm A} n (v1 v2 : A) l1 l2 : norm v1 = norm v2 -> norm l1 = norm l2 ->
  norm (set_nth n v1 l1) = norm (set_nth n v2 l2).
Proof.
  intros E F. change (map norm (set_nth n v1 l1) = map norm (set_nth n v2 l2)). rewrite !map_set_nth.
  change (set_nth n (norm v1) (norm l1) = set_nth n (norm v2) (norm l2)). congruence.
Qed.
Lemma norm_some {A} {NA : Norm A} (a b : A) : norm (Some a) = norm (Some b) -> norm a = norm b.
Proof. intro E. now injection E. Qed.
Lemma norm_cons {A} {NA : Norm A} (a b : A) l m : norm (a :: l) = norm (b :: m) -> norm a = norm b /\ norm l = norm m.
Proof. intro E. injection E. auto. Qed.
Lemma norm_name i1 i2 : norm i1 = norm i2 -> to_lower (i_name i1) = to_lower (i_name i2).
Proof. intro E. exact (f_equal i_name E). Qed.

(** ** Rules *)
Lemma psim_ret {A} {SA : Sim A} (a b : A) : sim a b -> psim (Ret a) (Ret b).
Proof. intros E s1 s2 S. split; auto. Qed.
Lemma psim_bind {A B} {SA : Sim A} {SB : Sim B} (p1 p2 : prog A) (k1 k2 : A -> prog B) :
  psim p1 p2 -> (forall a b, sim a b -> psim (k1 a) (k2 b)) -> psim (Bind p1 k1) (Bind p2 k2).
Proof.
  intros P K s1 s2 S. cbn [run]. specialize (P s1 s2 S).
  destruct (run p1 s1), (run p2 s2); cbn in P; try contradiction; cbn; auto. destruct P as [P1 P2]. now apply K.
Qed.
Lemma psim_next : psim Next Next.
Proof.
  intros s1 s2 (K & C & X & P & Hh). cbn [run]. unfold next_token. pose proof (ksim_next _ _ K) as M.
  destruct (get_next (s_tok s1)), (get_next (s_tok s2)); try contradiction; cbn; auto.
  - destruct M as [M1 M2]. split; [exact M1|]. exact (conj M2 (conj M1 (conj X (conj P Hh)))).
  - split; [exact I|]. exact (conj M (conj I (conj X (conj P Hh)))).
Qed.
Lemma psim_cur : psim Cur Cur.
Proof. intros s1 s2 S. split; auto. apply S. Qed.
Lemma ssim_heap s1 s2 h1 h2 : ssim s1 s2 -> norm h1 = norm h2 -> ssim (with_heap h1 s1) (with_heap h2 s2).
Proof. intros (K & C & X & P & Hh) E. exact (conj K (conj C (conj X (conj P E)))). Qed.
Lemma psim_onheap {A} {SA : Sim A} (f1 f2 : nat -> heap -> hres A) :
  (forall c h1 h2, norm h1 = norm h2 -> hsim (f1 c h1) (f2 c h2)) -> psim (OnHeap f1) (OnHeap f2).
Proof.
  intros F s1 s2 S. cbn [run]. pose proof S as (_ & _ & X & _ & Hh). rewrite <- X. specialize (F (s_ctx s1) _ _ Hh).
  destruct (f1 _ _), (f2 _ _); cbn in F; try contradiction; cbn; auto; destruct F as [F1 F2]; split; auto using ssim_heap.
Qed.
Lemma ctx_path_sim h1 h2 c : norm h1 = norm h2 -> ctx_path h1 c = ctx_path h2 c.
Proof.
  intro E. unfold ctx_path. generalize (S c) as f. intro f. revert c.
  induction f as [|f IH]; intro c; [reflexivity|]. cbn [ctx_path_fuel]. rewrite (nh_ctxs _ _ E).
  destruct (nth_error (h_ctxs h2) c) as [o|]; auto. destruct (cx_path o), (cx_kind o); auto.
Qed.
Lemma psim_failat {A} {SA : Sim A} t1 t2 : psim (@FailAt A t1) (@FailAt A t2).
Proof.
  intros s1 s2 S. cbn [run]. pose proof S as (_ & _ & X & _ & Hh). rewrite <- X, (ctx_path_sim _ _ _ Hh).
  destruct (ctx_path _ _); cbn; auto.
Qed.
Lemma psim_fail {A} {SA : Sim A} e1 e2 : norm e1 = norm e2 -> psim (@Fail A e1) (@Fail A e2).
Proof. intros E s1 s2 S. now split. Qed.
Lemma psim_crash {A} {SA : Sim A} : psim (@Crash A) (@Crash A).
Proof. intros s1 s2 S. exact I. Qed.
Lemma psim_nofuel {A} {SA : Sim A} p : psim (@NoFuel A) p.
Proof. intros s1 s2 S. exact I. Qed.
Lemma psim_attempt {B} {NB : Norm B} (p1 p2 : prog (option B)) : psim p1 p2 -> psim (Attempt p1) (Attempt p2).
Proof.
  intros P s1 s2 S. cbn [run]. pose proof S as (K & C & X & Po & Hh).
  destruct (s_cur s1) as [t1|], (s_cur s2) as [t2|]; try contradiction; [|exact I].
  unfold ctx_clone. rewrite (nh_ctxs _ _ Hh), <- X. destruct (nth_error (h_ctxs (s_heap s2)) (s_ctx s1)) as [o|]; [|exact I].
  set (h1 := with_ctxs _ (s_heap s1)). set (h2 := with_ctxs _ (s_heap s2)).
  assert (Hh' : norm h1 = norm h2).
  { subst h1 h2. unfold with_ctxs. rewrite (nh_refs _ _ Hh).
    apply nh_intro; auto using nh_maps, nh_decls, nh_fwds, nh_uses, nh_units, nh_progs. }
  specialize (P _ _ (ssim_heap _ _ _ _ S Hh')).
  destruct (run p1 _) as [[b1|] s1'| | | |], (run p2 _) as [[b2|] s2'| | | |]; cbn in P; try contradiction; cbn; auto.
  - destruct P as [P _]. discriminate P.
  - destruct P as [P _]. discriminate P.
  - destruct P as (_ & K' & C' & X' & Po' & Hh''). split; [reflexivity|]. split; [now apply ksim_clone|].
    split; [exact (tsim_clone _ _ C)|]. split; auto.
Qed.
Lemma ctx_put_map_sim h1 h2 c m : norm h1 = norm h2 -> norm (ctx_put_map h1 c m) = norm (ctx_put_map h2 c m).
Proof.
  intro E. unfold ctx_put_map. rewrite (nh_ctxs _ _ E). destruct (nth_error _ c); auto. unfold with_ctxs.
  rewrite (nh_refs _ _ E). apply nh_intro; auto using nh_maps, nh_decls, nh_fwds, nh_uses, nh_units, nh_progs.
Qed.
Lemma with_maps_sim h1 h2 m : norm h1 = norm h2 -> norm (with_maps m h1) = norm (with_maps m h2).
Proof.
  intro E. unfold with_maps. rewrite (nh_refs _ _ E), (nh_ctxs _ _ E).
  apply nh_intro; auto using nh_maps, nh_decls, nh_fwds, nh_uses, nh_units, nh_progs.
Qed.
Lemma psim_scoped {A} {SA : Sim A} (p1 p2 : prog A) : psim p1 p2 -> psim (Scoped p1) (Scoped p2).
Proof.
  intros P s1 s2 S. cbn [run]. pose proof S as (K & C & X & Po & Hh).
  unfold ctx_stack, new_chained, new_map. rewrite (nh_ctxs _ _ Hh), <- X, (nh_maps _ _ Hh).
  destruct (nth_error (h_ctxs (s_heap s2)) (s_ctx s1)) as [o|]; [|exact I].
  match goal with |- context [run p1 (with_heap ?a _)] => set (h1 := a) end.
  match goal with |- context [run p2 (with_heap ?a _)] => set (h2 := a) end.
  assert (Hh' : norm h1 = norm h2) by (subst h1 h2; now apply ctx_put_map_sim, with_maps_sim).
  specialize (P _ _ (ssim_heap _ _ _ _ S Hh')).
  destruct (run p1 _) as [a1 s1'|e1 s1'| | |], (run p2 _) as [a2 s2'|e2 s2'| | |]; cbn in P; try contradiction; cbn; auto;
    destruct P as [P1 P2]; split; auto; apply ssim_heap; auto; apply ctx_put_map_sim, P2.
Qed.
Lemma psim_traced {A} {SA : Sim A} (p1 p2 : prog A) : psim p1 p2 -> psim (Traced p1) (Traced p2).
Proof.
  intros P s1 s2 S. cbn [run]. pose proof S as (K & C & X & Po & Hh).
  destruct (s_cur s1), (s_cur s2); try contradiction; [|exact I]. specialize (P _ _ S).
  destruct (run p1 _) as [a1 s1'|e1 s1'| | |], (run p2 _) as [a2 s2'|e2 s2'| | |]; cbn in P; try contradiction; cbn; auto;
    destruct P as [P1 P2]; pose proof P2 as (_ & C2 & _); destruct (s_cur s1'), (s_cur s2'); try contradiction; cbn; auto.
Qed.
Lemma psim_postscope {A} {SA : Sim A} (p1 p2 : prog A) : psim p1 p2 -> psim (PostScope p1) (PostScope p2).
Proof.
  intros P s1 s2 S. cbn [run]. pose proof S as (K & C & X & Po & Hh).
  assert (S' : ssim (with_post [] s1) (with_post [] s2)) by exact (conj K (conj C (conj X (conj (Forall2_nil _) Hh)))).
  specialize (P _ _ S').
  destruct (run p1 _) as [a1 s1'|e1 s1'| | |], (run p2 _) as [a2 s2'|e2 s2'| | |]; cbn in P; try contradiction; cbn; auto;
    destruct P as [P1 (K' & C' & X' & _ & Hh')]; split; auto; exact (conj K' (conj C' (conj X' (conj Po Hh')))).
Qed.
Lemma psim_addpost cell n1 n2 : same_letters n1 n2 -> psim (AddPost cell n1) (AddPost cell n2).
Proof.
  intros E s1 s2 (K & C & X & Po & Hh). split; [reflexivity|]. refine (conj K (conj C (conj X (conj _ Hh)))).
  apply Forall2_app; auto. constructor; [now split|constructor].
Qed.

(** Look-ups *)
Lemma embedded_get_letters n1 n2 : to_upper n1 = to_upper n2 -> embedded_get n1 = embedded_get n2.
Proof. intro E. unfold embedded_get. now rewrite E. Qed.
Lemma embedded_type_letters k n1 n2 : to_upper n1 = to_upper n2 -> embedded_type_decl k n1 = embedded_type_decl k n2.
Proof. intro E. unfold embedded_type_decl. now rewrite E. Qed.
Lemma impl_get_sim h1 h2 a n1 n2 : norm h1 = norm h2 -> same_letters n1 n2 -> impl_get h1 a n1 = impl_get h2 a n2.
Proof. intros E [L _]. unfold impl_get, regularize. now rewrite (nh_maps _ _ E), L. Qed.
Fixpoint dget_sim (h1 h2 : heap) (m : dmap) n1 n2 (E : norm h1 = norm h2) (L : same_letters n1 n2) {struct m} : dget h1 m n1 = dget h2 m n2.
Proof.
  destruct m as [a|p a|ms| |]; cbn [dget].
  - now apply impl_get_sim.
  - rewrite (impl_get_sim _ _ a _ _ E L). destruct (impl_get h2 a n2); auto.
  - induction ms as [|m ms IH]; [reflexivity|]. rewrite (dget_sim h1 h2 m n1 n2 E L). destruct (dget h2 m n2); auto.
  - now rewrite (embedded_get_letters _ _ (proj2 L)).
  - reflexivity.
Qed.
Lemma ctx_get_sim h1 h2 c n1 n2 : norm h1 = norm h2 -> same_letters n1 n2 -> ctx_get h1 c n1 = ctx_get h2 c n2.
Proof.
  intros E L. unfold ctx_get. generalize (S c) as f. intro f. revert c.
  induction f as [|f IH]; intro c; [reflexivity|]. cbn [ctx_get_fuel]. rewrite (nh_ctxs _ _ E).
  destruct (nth_error (h_ctxs h2) c) as [o|]; auto. rewrite (dget_sim _ _ _ _ _ E L). destruct (cx_kind o); auto.
  destruct (dget h2 (cx_map o) n2); auto.
Qed.
Lemma run_post_sim c l1 l2 : Forall2 post_sim l1 l2 -> forall h1 h2, norm h1 = norm h2 ->
  norm (run_post c l1 h1) = norm (run_post c l2 h2).
Proof.
  induction 1 as [|[cell n1] [cell2 n2] l1 l2 [E L] F IH]; intros h1 h2 Hh.
  - now apply (f_equal Some).
  - cbn in E, L. subst cell2. cbn [run_post]. rewrite (ctx_get_sim _ _ c _ _ Hh L).
    destruct (ctx_get h2 c n2); auto. apply IH. unfold with_refs. rewrite (nh_refs _ _ Hh), (nh_ctxs _ _ Hh).
    apply nh_intro; auto using nh_maps, nh_decls, nh_fwds, nh_uses, nh_units, nh_progs.
Qed.
Lemma psim_runpost : psim RunPost RunPost.
Proof.
  intros s1 s2 S. pose proof S as (K & C & X & Po & Hh). cbn [run].
  pose proof (run_post_sim (s_ctx s1) _ _ Po _ _ Hh) as E. rewrite <- X.
  destruct (run_post _ (s_post s1) _), (run_post _ (s_post s2) _); try discriminate E; cbn; auto.
  split; [reflexivity|]. apply ssim_heap; auto. now apply norm_some.
Qed.

(** Loops *)
Lemma psim_loop {S A} {SS : Sim S} {SA : Sim A} f1 : forall f2 (b1 b2 : S -> prog (S + A)),
  f1 <= f2 ->
  (forall v1 v2, sim v1 v2 -> forall s1 s2, ssim s1 s2 ->
     match run (b1 v1) s1, run (b2 v2) s2 with
     | OOk (inl x1) s1', OOk (inl x2) s2' => sim x1 x2 /\ ssim s1' s2'
     | OOk (inr x1) s1', OOk (inr x2) s2' => sim x1 x2 /\ ssim s1' s2'
     | OOk _ _, OOk _ _ => False
     | OErr e1 s1', OErr e2 s2' => norm e1 = norm e2 /\ ssim s1' s2'
     | OStuck, _ | OPanic, OPanic | OHang, OHang => True
     | _, _ => False
     end) ->
  forall v1 v2, sim v1 v2 -> psim (loop f1 b1 v1) (loop f2 b2 v2).
Proof.
  induction f1 as [|f1 IH]; intros f2 b1 b2 L B v1 v2 V s1 s2 S0; [exact I|].
  destruct f2 as [|f2]; [lia|]. cbn [loop run]. specialize (B v1 v2 V s1 s2 S0) as B'.
  destruct (run (b1 v1) s1) as [[x1|x1] s1'|e1 s1'| | |], (run (b2 v2) s2) as [[x2|x2] s2'|e2 s2'| | |]; try contradiction; auto.
  - destruct B' as [B1 B2]. eapply IH; eauto. lia.
Qed.
Lemma psim_loop_norm {S A} {NS : Norm S} {NA : Norm A} f1 f2 (b1 b2 : S -> prog (S + A)) v1 v2 :
  f1 <= f2 -> (forall v1 v2, norm v1 = norm v2 -> psim (b1 v1) (b2 v2)) -> norm v1 = norm v2 ->
  psim (loop f1 b1 v1) (loop f2 b2 v2).
Proof.
  intros L B V. apply (psim_loop (SS := sim_norm) f1 f2); auto. intros x1 x2 X s1 s2 S0. specialize (B x1 x2 X s1 s2 S0).
  destruct (run (b1 x1) s1) as [[y1|y1] s1'|e1 s1'| | |], (run (b2 x2) s2) as [[y2|y2] s2'|e2 s2'| | |]; cbn in B; try contradiction; auto;
    destruct B as [B1 B2]; try discriminate B1; injection B1; auto.
Qed.
End WithUnicode.
