(** The methods for types read the source form of a type. *)
From Coq Require Import String List NArith Bool Arith Lia.
From Verif Require Import ListUtil Runes UnicodeFacts Token Tokenizer LexSpec LexShape LexFacts LexMain Ext ExtMain
  Ast Heap Classes MapSpec MapFacts MapMain Prog ParseSpec Parser RunFacts ExprSpec WpFacts ExprFacts StmtSpec GrowFacts
  StmtFacts EvolveFacts EvolveParse DeclSpec ScopeFacts.
Import ListNotations.
Local Open Scope list_scope.

Section WithUnicode.
Context {U : Unicode} {UOK : UnicodeOk U}.

Notation words := (list (ttype * gostring)).
Context (text : list rune) (st : style).
Notation in_scope := (in_scope text).

Ltac fl := cbv beta iota; repeat (match goal with
  | |- wp (Bind (Ret _) _) _ _ => apply wp_ret_bind
  | |- wp (Bind (Bind _ _) _) _ _ => apply wp_assoc
  end; cbv beta iota).
Ltac wd := let t := fresh "t" in let W := fresh "W" in intros t W; cbn [p_some existsb]; rewrite ?sym_w, ?kw_w, ?type_w, ?W; try reflexivity.

(** ** Scopes *)
Lemma declare_nil' sc : scope_le (declare [] sc) sc.
Proof. unfold scope_le, declare. cbn. repeat match goal with |- _ /\ _ => split end; auto; intros n [H _]; exact H. Qed.
Lemma scope_le_trans a b c : scope_le a b -> scope_le b c -> scope_le a c.
Proof. intros (A1 & A2 & A3 & A4 & A5 & A6 & A7 & A8) (B1 & B2 & B3 & B4 & B5 & B6 & B7 & B8). unfold scope_le. auto 12. Qed.
Lemma declare_le vs a b : scope_le a b -> scope_le (declare vs a) (declare vs b).
Proof.
  intros (A1 & A2 & A3 & A4 & A5 & A6 & A7 & A8). unfold scope_le, declare. cbn [known free undeclared ordinal].
  repeat match goal with |- _ /\ _ => split end; auto; intros n [H1 H2]; auto.
Qed.
Lemma behind_declare {A} (f : A -> list gostring) l : forall sc,
  scope_le (declare (flat_map f l) sc) (behind_all (fun a => declare (f a)) l sc).
Proof.
  induction l as [|a l IH]; intros sc; [apply declare_nil'|]. cbn [flat_map behind_all fold_left].
  eapply scope_le_trans; [apply declare_app|]. apply IH.
Qed.
Lemma behind_declare' {A} (f : A -> list gostring) l : forall sc,
  scope_le (behind_all (fun a => declare (f a)) l sc) (declare (flat_map f l) sc).
Proof.
  induction l as [|a l IH]; intros sc; [apply declare_nil|]. cbn [flat_map behind_all fold_left].
  eapply scope_le_trans; [apply IH|apply declare_app'].
Qed.
Lemma known_declare vs sc : known (declare vs sc) = known sc.
Proof. reflexivity. Qed.

(** ** Rules *)
Section Rules.
Context {B : Type} (sc : scope) (s : pst) (Q : B -> pst -> Prop).
Lemma d_skip (k : option token -> prog B) ws w ws' : in_scope sc s (w :: ws) -> ws <> [] -> ws = ws' ->
  (forall t s1, in_scope sc s1 ws' -> wp (k t) s1 Q) -> wp (Bind Next k) s Q.
Proof. intros I N <- K. eapply d_next; eauto. Qed.
Lemma d_get n (k : option dref -> prog B) ws : in_scope sc s ws ->
  (forall d, ctx_get (s_heap s) (s_ctx s) n = match d with None => LNil | Some d => LFound d end -> wp (k d) s Q) -> wp (Bind (get n) k) s Q.
Proof.
  intros I K. pose proof (sc_total _ _ _ _ I n) as T. destruct (ctx_get (s_heap s) (s_ctx s) n) as [|d|] eqn:E; [| |congruence].
  - apply wp_bind. eapply wp_run; [rewrite run_get, E; reflexivity|]. now apply (K None).
  - apply wp_bind. eapply wp_run; [rewrite run_get, E; reflexivity|]. now apply (K (Some d)).
Qed.
Lemma d_new_type_id u i d (k : typeid -> prog B) ws : in_scope sc s ws ->
  (forall c s1, ref_of (s_heap s1) (mkTypeId u i c) = d -> (forall e, deref (s_heap s1) e = deref (s_heap s) e) ->
     in_scope sc s1 ws -> wp (k (mkTypeId u i c)) s1 Q) -> wp (Bind (new_type_id u i d) k) s Q.
Proof.
  intros I K. apply wp_bind, wp_new_type_id. apply K.
  - unfold ref_of. cbn. rewrite nth_error_app2, Nat.sub_diag by lia. now destruct d.
  - intros [e|e]; reflexivity.
  - eapply in_scope_calm; [exact I|apply quiet_calm, quiet_refs|apply stands_heap, I].
Qed.
Lemma d_add_post c n (k : unit -> prog B) ws : in_scope sc s ws -> (forall s1, in_scope sc s1 ws -> wp (k tt) s1 Q) -> wp (Bind (AddPost c n) k) s Q.
Proof. intros I K. apply wp_bind. eapply wp_run; [reflexivity|]. apply K. now apply in_scope_post. Qed.
Lemma d_attempt {A} (p : prog (option A)) (k : option A -> prog B) w ws : in_scope sc s (w :: ws) ->
  (forall s0, in_scope sc s0 (w :: ws) -> wp p s0 (fun r s' => match r with Some b => wp (k (Some b)) s' Q | None => quiet s0 s' end)) ->
  (forall s1, in_scope sc s1 (w :: ws) -> wp (k None) s1 Q) -> wp (Bind (Attempt p) k) s Q.
Proof.
  intros I Hp Kn. destruct (stands_cur _ _ _ _ (sc_stands _ _ _ _ I)) as (t & C & Wt & _).
  destruct (parser_context_clone _ (sc_context _ _ _ _ I)) as (o & Eo & Kc).
  apply wp_bind. eapply wp_attempt; [exact C|exact Kc|]. eapply wp_conseq; [apply Hp|].
  - eapply in_scope_calm; [exact I|now apply quiet_calm, quiet_clone|apply stands_heap, I].
  - intros [b|] s' H; [exact H|]. rewrite <- C. apply Kn.
    eapply in_scope_calm; [exact I|apply quiet_calm, (quiet_back s s' o Eo), H|apply stands_back, I].
Qed.
Lemma d_attempt_some {A} (p : prog (option A)) (k : option A -> prog B) w ws : in_scope sc s (w :: ws) ->
  (forall s0, in_scope sc s0 (w :: ws) -> wp p s0 (fun r s' => exists b, r = Some b /\ wp (k (Some b)) s' Q)) ->
  wp (Bind (Attempt p) k) s Q.
Proof.
  intros I Hp. destruct (stands_cur _ _ _ _ (sc_stands _ _ _ _ I)) as (t & C & Wt & _).
  destruct (parser_context_clone _ (sc_context _ _ _ _ I)) as (o & Eo & Kc).
  apply wp_bind. eapply wp_attempt; [exact C|exact Kc|]. eapply wp_conseq; [apply Hp|].
  - eapply in_scope_calm; [exact I|now apply quiet_calm, quiet_clone|apply stands_heap, I].
  - intros r s' (b & -> & H). exact H.
Qed.
Lemma d_get_node n (k : option (dref * dnode) -> prog B) ws : in_scope sc s ws -> a_name (known sc) n ->
  (forall r, match r with Some (_, NUses _) | Some (_, NUnit _) | Some (_, NProgram _) => False | _ => True end ->
     wp (k r) s Q) -> wp (Bind (get_node n) k) s Q.
Proof.
  intros I A K. apply (weak_a_name _ _ (in_scope_weak _ _ _ _ I)) in A.
  destruct (plain_get (names (senv_of s)) s n (agrees_here s (sc_context _ _ _ _ I)) A) as (r & G & _ & NN & _).
  apply wp_bind. eapply wp_run; [exact G|]. now apply K.
Qed.
Lemma d_not_unit (k : option typeid -> prog B) w ws : in_scope sc s (w :: ws) -> a_name (known sc) (snd w) ->
  wp (k None) s Q -> wp (Bind parse_type_id_with_unit k) s Q.
Proof.
  intros I A K. unfold parse_type_id_with_unit, is_unit_identifier. fl. eapply d_cur; [exact I|]. intros t Wt. fl.
  rewrite value_w, Wt. eapply d_get_node; [exact I|exact A|]. intros r NN. fl.
  replace (match r with Some (_, NUses _) => true | _ => false end) with false by (destruct r as [[? []]|]; auto; contradiction).
  fl. exact K.
Qed.
End Rules.

(** ** Names of types *)
Lemma string_w t : word_of t = wkey "STRING" -> is_string (raw t) = true.
Proof.
  unfold word_of, value. destruct (t_type t); try discriminate. intros [= E]. unfold is_string. rewrite E. reflexivity.
Qed.
Lemma bare_read u t c i : u = None -> ti_unit i = None -> [word_of t] = write_typeid i -> bare_tid (mkTypeId u (new_ident t) c) = bare_tid i.
Proof.
  intros -> Hu E. unfold write_typeid in E. unfold bare_tid. cbn [ti_unit ti_ident i_name new_ident option_map]. rewrite Hu.
  cbn [option_map]. f_equal. f_equal. destruct (is_string (i_name (ti_ident i))) eqn:S.
  - apply (f_equal (hd weof)) in E. cbn [hd] in E. rewrite (string_w t) by exact E. reflexivity.
  - apply (f_equal (hd weof)) in E. cbn [hd] in E. rename E into E1. apply wident_inv in E1 as [_ ->]. now rewrite S.
Qed.
Lemma d_type_id_without_unit {B} sc s Q i w (k : typeid -> prog B) ws : in_scope sc s (w :: ws) -> ws <> [] ->
  [w] = write_typeid i -> ti_unit i = None ->
  (forall r s1, bare_tid r = bare_tid i ->
     (is_string (i_name (ti_ident i)) = false -> forall d t, resolves (s_heap s1) (s_ctx s1) (i_name (ti_ident i)) d (NType t) -> ref_type (s_heap s1) r = Some t) ->
     in_scope sc s1 ws -> wp (k r) s1 Q) ->
  wp (Bind parse_type_id_without_unit k) s Q.
Proof.
  intros I N W Hu K. unfold parse_type_id_without_unit. fl. eapply d_cur; [exact I|]. intros t Wt. fl.
  eapply d_next; [exact I|exact N|]. intros t0 s1 I1. fl. eapply d_get; [exact I1|]. intros d Gd. fl.
  assert (Bt : forall c, bare_tid (mkTypeId None (new_ident t) c) = bare_tid i).
  { intros c. apply bare_read; auto. now rewrite Wt. }
  assert (Rt : is_string (i_name (ti_ident i)) = false -> raw t = i_name (ti_ident i)).
  { intros S. unfold write_typeid in W. rewrite S in W. injection W as ->. now apply wident_inv in Wt as [_ ->]. }
  unfold new_type_id. apply wp_bind. eapply wp_run; [reflexivity|]. cbv beta.
  set (s2 := with_heap _ s1). set (r := mkTypeId None (new_ident t) _).
  assert (I2 : in_scope sc s2 ws).
  { eapply in_scope_calm; [exact I1|apply quiet_calm, quiet_refs|apply stands_heap, I1]. }
  assert (Rf : ref_of (s_heap s2) r = d).
  { unfold ref_of, s2, r. cbn. rewrite nth_error_app2, Nat.sub_diag by lia. now destruct d. }
  assert (G2 : forall n, ctx_get (s_heap s2) (s_ctx s2) n = ctx_get (s_heap s1) (s_ctx s1) n).
  { intros n. apply calm_get; [apply I1|]. apply quiet_calm, quiet_refs. }
  assert (F : forall s3, s_heap s3 = s_heap s2 -> s_ctx s3 = s_ctx s2 -> is_string (i_name (ti_ident i)) = false -> forall e ty,
    resolves (s_heap s3) (s_ctx s3) (i_name (ti_ident i)) e (NType ty) -> ref_type (s_heap s3) r = Some ty).
  { intros s3 -> -> S e ty (G & o & D & O). rewrite G2, <- (Rt S), Gd in G. destruct d as [d|]; [|discriminate]. injection G as ->.
    unfold ref_type. rewrite Rf, D, O. reflexivity. }
  destruct d as [d|]; fl.
  - apply K; [apply Bt|now apply F|exact I2].
  - apply wp_bind. eapply wp_run; [reflexivity|]. fl. apply K; [apply Bt|now apply F|now apply in_scope_post].
Qed.

(** ** Lists *)
(** Pieces with [mid] between them. *)
Fixpoint joined (mid : ttype * gostring) (pieces : list words) : words :=
  match pieces with
  | [] => []
  | [p] => p
  | p :: ps => p ++ mid :: joined mid ps
  end.
Lemma joined_commas l : commas l = joined (wsym ",") l.
Proof. induction l as [|p [|q l] IH]; [reflexivity|reflexivity|]. change (p ++ wsym "," :: commas (q :: l) = p ++ wsym "," :: joined (wsym ",") (q :: l)). now rewrite IH. Qed.
Lemma joined_semicolons l : semicolons l = joined (wsym ";") l.
Proof. induction l as [|p [|q l] IH]; [reflexivity|reflexivity|]. change (p ++ wsym ";" :: semicolons (q :: l) = p ++ wsym ";" :: joined (wsym ";") (q :: l)). now rewrite IH. Qed.
Lemma joined_cons mid p ps : ps <> [] -> joined mid (p :: ps) = p ++ mid :: joined mid ps.
Proof. now destruct ps. Qed.
Lemma joined_end {X} (W : X -> words) mid l : l <> [] -> joined mid (map W l) ++ [mid] = flat_map (fun x => W x ++ [mid]) l.
Proof.
  induction l as [|x [|y l] IH]; [congruence| |]; intros _.
  - cbn. now rewrite app_nil_r.
  - cbn [map]. rewrite joined_cons by discriminate. rewrite <- app_assoc. cbn [app].
    cbn [map] in IH. rewrite IH by discriminate. cbn [flat_map]. rewrite <- !app_assoc. reflexivity.
Qed.
Lemma joined_length {X} (W : X -> words) mid x l : In x l -> length (W x) <= length (joined mid (map W l)).
Proof.
  induction l as [|y l IH]; [intros []|]. intros I. destruct l as [|z l]; [destruct I as [->|[]]; auto|].
  cbn [map]. rewrite joined_cons by discriminate. rewrite app_length. cbn [length]. destruct I as [->|I]; [lia|]. specialize (IH I). cbn [map] in IH. lia.
Qed.
Lemma joined_count {X} (W : X -> words) mid l : length l <= S (length (joined mid (map W l))).
Proof.
  induction l as [|y l IH]; [auto|]. destruct l as [|z l]; [cbn; lia|].
  cbn [map]. rewrite joined_cons by discriminate. rewrite app_length. cbn [length map] in *. lia.
Qed.
Lemma joined_count2 {X} (W : X -> words) mid l : (forall x, In x l -> W x <> []) -> length l <= length (joined mid (map W l)).
Proof.
  induction l as [|y l IH]; [auto|]. intros H. assert (1 <= length (W y)) by (specialize (H y (or_introl eq_refl)); destruct (W y); [congruence|cbn; lia]).
  destruct l as [|z l]; [exact H0|]. cbn [map]. rewrite joined_cons by discriminate. rewrite app_length. cbn [length].
  assert (length (z :: l) <= length (joined mid (map W (z :: l)))) by (apply IH; intros x J; apply H; now right). cbn [length map] in *. lia.
Qed.
Lemma ended_length {X} (W : X -> words) mid x l : In x l -> length (W x) <= length (flat_map (fun x => W x ++ [mid]) l).
Proof.
  induction l as [|y l IH]; [intros []|]. intros I. cbn [flat_map]. rewrite !app_length. destruct I as [->|I]; [lia|]. specialize (IH I). lia.
Qed.
Lemma ended_count {X} (W : X -> words) mid l : length l <= length (flat_map (fun x => W x ++ [mid]) l).
Proof. induction l as [|y l IH]; [auto|]. cbn [flat_map length]. rewrite !app_length. cbn [length]. lia. Qed.

Section Lists.
Context {X : Type} (W : X -> words) (bare : X -> X) (P : X -> scope -> ttype * gostring -> Prop) (beh : X -> scope -> scope)
  (fn : list X -> prog (option (list X))) (term sep : predicator) (mid last : ttype * gostring).
(** [fn] reads an element and appends it. *)
Definition element (x : X) : Prop := forall B (k : option (list X) -> prog B) acc sc s Q after rest,
  in_scope sc s (W x ++ after :: rest) -> P x sc after ->
  (forall x' s1, bare x' = bare x -> in_scope (beh x sc) s1 (after :: rest) -> wp (k (Some (acc ++ [x']))) s1 Q) ->
  wp (Bind (fn acc) k) s Q.
Context (Tl : forall t, word_of t = last -> term t = true) (Tm : forall t, word_of t = mid -> term t = false)
  (Sm : forall t, word_of t = mid -> sep t = true).
Lemma d_list {B} (k : list X -> prog B) l : forall fuel acc sc s Q rest, l <> [] -> length l <= fuel ->
  (forall x, In x l -> element x) ->
  in_scope sc s (joined mid (map W l) ++ last :: rest) -> in_turn P beh mid last l sc ->
  (forall l' s1, map bare l' = map bare l -> in_scope (behind_all beh l sc) s1 (last :: rest) -> wp (k (acc ++ l')) s1 Q) ->
  wp (Bind (until fuel term (Some sep) fn acc) k) s Q.
Proof.
  induction l as [|x l IH]; intros fuel acc sc s Q rest NE Lf El I G K; [congruence|].
  destruct fuel as [|fuel]; [cbn in Lf; lia|]. unfold until. cbn [loop]. unfold until_step at 1. fl.
  destruct l as [|y l].
  - destruct G as [G _]. eapply (El x); [now left|exact I|exact G|]. intros x' s1 Bx I1. fl.
    eapply d_Cur; [exact I1|]. intros t Wt. fl. rewrite (Tl t Wt). fl. apply K; [cbn; now rewrite Bx|exact I1].
  - destruct G as [G1 G2]. cbn [map] in I. rewrite joined_cons in I by discriminate. rewrite <- app_assoc in I. cbn [app] in I.
    eapply (El x); [now left|exact I|exact G1|]. intros x' s1 Bx I1. fl.
    eapply d_Cur; [exact I1|]. intros t Wt. fl. rewrite (Tm t Wt). cbn [validate]. rewrite (Sm t Wt). fl.
    eapply d_next; [exact I1|apply app_nonempty; discriminate|]. intros t1 s2 I2. fl.
    apply (IH fuel (acc ++ [x']) (beh x sc) s2 Q rest); [discriminate|cbn in *; lia|intros z J; apply El; now right|exact I2|exact G2|].
    intros l' s3 Bl I3. rewrite <- app_assoc. apply (K (x' :: l')); [cbn [map]; rewrite Bx, Bl; reflexivity|exact I3].
Qed.
(** [fn] stops before [last]. *)
Definition ends : Prop := forall B (k : option (list X) -> prog B) acc sc s Q rest,
  in_scope sc s (last :: rest) -> wp (k None) s Q -> wp (Bind (fn acc) k) s Q.
Lemma d_list_ended {B} (k : list X -> prog B) l : ends -> forall fuel acc sc s Q rest, length l < fuel ->
  (forall x, In x l -> element x) ->
  in_scope sc s (flat_map (fun x => W x ++ [mid]) l ++ last :: rest) -> in_turn P beh mid mid l sc ->
  (forall l' s1, map bare l' = map bare l -> in_scope (behind_all beh l sc) s1 (last :: rest) -> wp (k (acc ++ l')) s1 Q) ->
  wp (Bind (until fuel term (Some sep) fn acc) k) s Q.
Proof.
  clear Tl. intros Hend. induction l as [|x l IH]; intros fuel acc sc s Q rest Lf El I G K;
    (destruct fuel as [|fuel]; [cbn in Lf; lia|]); unfold until; cbn [loop]; unfold until_step at 1; fl.
  - eapply Hend; [exact I|]. fl. rewrite <- (app_nil_r acc). apply K; [reflexivity|exact I].
  - destruct G as [G1 G2]. replace (match l with [] => mid | _ => mid end) with mid in G1 by (now destruct l).
    cbn [flat_map] in I. rewrite <- !app_assoc in I. cbn [app] in I.
    eapply (El x); [now left|exact I|exact G1|]. intros x' s1 Bx I1. fl.
    eapply d_Cur; [exact I1|]. intros t Wt. fl. rewrite (Tm t Wt). cbn [validate]. rewrite (Sm t Wt). fl.
    eapply d_next; [exact I1|apply app_nonempty; discriminate|]. intros t1 s2 I2. fl.
    apply (IH fuel (acc ++ [x']) (beh x sc) s2 Q rest); [cbn in *; lia|intros z J; apply El; now right|exact I2|exact G2|].
    intros l' s3 Bl I3. rewrite <- app_assoc. apply (K (x' :: l')); [cbn [map]; rewrite Bx, Bl; reflexivity|exact I3].
Qed.
End Lists.
(** A list with semicolons, and perhaps one behind it. *)
Lemma d_semi_list {X B} (W : X -> words) bare P beh fn term close (k : list X -> prog B) l fuel sc s Q rest :
  (forall t, word_of t = close -> term t = true) -> (forall t, word_of t = wsym ";" -> term t = false) ->
  ends fn close -> length l < fuel -> (forall x, In x l -> element W bare P beh fn x) ->
  in_scope sc s (semicolons (map W l) ++ list_end st l ++ close :: rest) ->
  in_turn P beh (wsym ";") (behind (statements st) true close) l sc ->
  (forall l' s1, map bare l' = map bare l -> in_scope (behind_all beh l sc) s1 (close :: rest) -> wp (k l') s1 Q) ->
  wp (Bind (until fuel term (Some (sym ";")) fn []) k) s Q.
Proof.
  intros Tc Ts He Lf El I G K. rewrite joined_semicolons in I.
  assert (Sm : forall t, word_of t = wsym ";" -> sym ";" t = true) by wd.
  unfold behind in G. cbn [andb] in G. unfold list_end, last_semi in I.
  destruct l as [|x l].
  - eapply (d_list_ended W bare P beh fn term (sym ";") (wsym ";") close Ts Sm _ [] He); [cbn; lia|intros ? []|exact I|exact Logic.I|exact K].
  - destruct (semi (statements st)); cbn [negb] in G.
    + rewrite app_assoc, joined_end in I by discriminate.
      eapply (d_list_ended W bare P beh fn term (sym ";") (wsym ";") close Ts Sm _ (x :: l) He); eauto.
    + eapply (d_list W bare P beh fn term (sym ";") (wsym ";") close Tc Ts Sm _ (x :: l)); eauto; [discriminate|lia].
Qed.

(** Lists of identifiers. *)
Lemma bare_names a b : map i_name a = map i_name b -> map bare_ident a = map bare_ident b.
Proof.
  revert b. induction a as [|x a IH]; destruct b as [|y b]; try discriminate; [reflexivity|]. cbn [map]. intros [= E1 E2].
  unfold bare_ident at 1 2. rewrite E1. f_equal. now apply IH.
Qed.
Lemma d_idents {B} sc s Q l fuel (terminator : predicator) T ls (k : list ident -> prog B) : l <> [] -> length l <= fuel ->
  (forall t, word_of t = T -> terminator t = true) -> (forall t, word_of t = wsym "," -> terminator t = false) ->
  in_scope sc s (write_idents l ++ T :: ls) ->
  (forall ids s1, map i_name ids = map i_name l -> in_scope sc s1 (T :: ls) -> wp (k ids) s1 Q) ->
  wp (Bind (parse_ident_list_by fuel terminator) k) s Q.
Proof.
  intros NE Lf HT HC I K. destruct (ident_list_is_read text s (map i_name l) terminator T ls fuel) as (ids & s' & R & M & St & SB); auto.
  - now destruct l.
  - now rewrite map_length.
  - unfold comma_list. rewrite map_map. apply I.
  - apply wp_bind. eapply wp_run; [exact R|]. apply K; [exact M|].
    eapply in_scope_calm; [exact I|now apply quiet_calm, quiet_place|exact St].
Qed.
End WithUnicode.
