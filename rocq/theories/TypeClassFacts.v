(** The methods for classes read the source form of a class, and so every type is read. *)
From Coq Require Import String List NArith Bool Arith Lia.
From Verif Require Import ListUtil Runes UnicodeFacts Token Tokenizer LexSpec LexShape LexFacts LexMain Ext ExtMain
  Ast Heap Classes MapSpec MapFacts MapMain Prog ParseSpec Parser RunFacts ExprSpec WpFacts ExprFacts StmtSpec GrowFacts
  StmtFacts EvolveFacts EvolveParse SteadyFacts DeclSpec ScopeFacts DeclFacts TypeFacts.
Import ListNotations.
Local Open Scope list_scope.
Local Open Scope prog_scope.

Section WithUnicode.
Context {U : Unicode} {UOK : UnicodeOk U}.

Notation words := (list (ttype * gostring)).
Context (text : list rune) (st : style).
Notation in_scope := (in_scope text).

Ltac fl := cbv beta iota; repeat (match goal with
  | |- wp (Bind (Ret _) _) _ _ => apply wp_ret_bind
  | |- wp (Bind (Bind _ _) _) _ _ => apply wp_assoc
  end; cbv beta iota).
Ltac wd := let t := fresh "t" in let W := fresh "W" in intros t W; cbn [p_some existsb]; rewrite ?sym_w, ?kw_w, ?type_w, ?W; try reflexivity.
Ltac ev := repeat match goal with
  | |- context [eqs_any ?a ?b] => let v := eval vm_compute in (eqs_any a b) in replace (eqs_any a b) with v by (vm_compute; reflexivity)
  | |- context [eqs ?a ?b] => let v := eval vm_compute in (eqs a b) in replace (eqs a b) with v by (vm_compute; reflexivity)
  end.

(** ** Rules that say more *)
(** A rule of a method that only adds cells of type names says so of its end. *)
Lemma d_kept {A B} (p : prog A) (k : A -> prog B) s Q (Post : A -> pst -> Prop) : steady p ->
  wp (Bind p (fun a => Ret a)) s Post -> (forall a s1, Post a s1 -> kept s s1 -> wp (k a) s1 Q) -> wp (Bind p k) s Q.
Proof.
  intros S H K. apply wp_elim in H as (a & s' & E & H). rewrite run_bind in E. destruct (run p s) as [x s1| | | |] eqn:R; try discriminate.
  injection E as <- <-. apply wp_bind. eapply wp_run; [exact R|]. apply K; [exact H|]. eapply S, R.
Qed.
(** An ancestor that stands for nothing. *)
Definition orphan (her : option (list typeid)) (s : pst) : Prop :=
  match her with Some (p :: _) => nth_error (h_refs (s_heap s)) (ti_ref p) = Some None | _ => True end.
Lemma orphan_kept her s s' : kept s s' -> orphan her s -> orphan her s'.
Proof. destruct her as [[|p her]|]; cbn; auto. apply kept_nth. Qed.
Lemma orphan_parent her s : orphan her s -> parent_class (s_heap s) her = None.
Proof. destruct her as [[|p her]|]; cbn; auto. intros E. unfold ref_type, ref_of. now rewrite E. Qed.
Lemma d_type_id_ref {B} sc s Q i (k : typeid -> prog B) ws : in_scope sc s (write_typeid i ++ ws) -> ws <> [] -> good_typeid sc i ->
  (forall r s1, bare_tid r = bare_tid i ->
     (is_string (i_name (ti_ident i)) = false -> undeclared sc (i_name (ti_ident i)) -> nth_error (h_refs (s_heap s1)) (ti_ref r) = Some None) ->
     in_scope sc s1 ws -> wp (k r) s1 Q) -> wp (Bind parse_type_id k) s Q.
Proof.
  intros I N [Hu A] K. unfold parse_type_id. fl.
  eapply d_not_unit; [exact I|unfold write_typeid; destruct (is_string _); exact A|]. fl.
  change (write_typeid i ++ ws) with (hd weof (write_typeid i) :: ws) in I.
  unfold parse_type_id_without_unit. fl. eapply d_cur; [exact I|]. intros t Wt. fl.
  eapply d_next; [exact I|exact N|]. intros t0 s1 I1. fl. eapply d_get; [exact I1|]. intros d Gd. fl.
  assert (Bt : forall c, bare_tid (mkTypeId None (new_ident t) c) = bare_tid i).
  { intros c. apply bare_read; auto. rewrite Wt. reflexivity. }
  assert (Rt : is_string (i_name (ti_ident i)) = false -> raw t = i_name (ti_ident i)).
  { intros S. unfold write_typeid in Wt. rewrite S in Wt. cbn [hd] in Wt. now apply wident_inv in Wt as [_ ->]. }
  unfold new_type_id. apply wp_bind. eapply wp_run; [reflexivity|]. cbv beta.
  set (s2 := with_heap _ s1). set (r := mkTypeId None (new_ident t) _).
  assert (I2 : in_scope sc s2 ws).
  { eapply in_scope_calm; [exact I1|apply quiet_calm, quiet_refs|apply stands_heap, I1]. }
  assert (F : is_string (i_name (ti_ident i)) = false -> undeclared sc (i_name (ti_ident i)) -> nth_error (h_refs (s_heap s2)) (ti_ref r) = Some None).
  { intros S Ud. rewrite (Rt S), (sc_undeclared _ _ _ _ I1 _ Ud) in Gd. destruct d; [discriminate|].
    unfold s2, r. cbn. rewrite nth_error_app2, Nat.sub_diag by lia. reflexivity. }
  destruct d as [d|]; fl.
  - apply K; [apply Bt|exact F|exact I2].
  - apply wp_bind. eapply wp_run; [reflexivity|]. fl. apply K; [apply Bt|exact F|now apply in_scope_post].
Qed.

(** ** The members of a class *)
Lemma found_name {A} (nm : A -> gostring) l kw : to_lower kw = kw ->
  (exists x, find_name nm l kw = Some x) \/ (find_name nm l kw = None /\ ~ In kw (map to_lower (map nm l))).
Proof.
  intros L. induction l as [|x l IH]; cbn [find_name map]; [right; split; [reflexivity|intros []]|]. rewrite L.
  destruct (runes_eqb_spec (to_lower (nm x)) kw) as [E|E]; [left; eauto|]. destruct IH as [IH|[IH N]]; [now left|right]. split; [exact IH|].
  intros [J|J]; auto.
Qed.
Lemma found_names {A C} (nm : A -> gostring) (nm' : C -> gostring) l l' kw x : to_lower kw = kw -> map nm l = map nm' l' ->
  find_name nm l kw = Some x -> exists y, find_name nm' l' kw = Some y.
Proof.
  intros L E F. destruct (found_name nm' l' kw L) as [Y|[_ Y]]; [exact Y|]. exfalso. apply Y. rewrite <- E.
  clear - L F. induction l as [|y l IH]; cbn [find_name map] in *; [discriminate|]. rewrite L in F.
  destruct (runes_eqb_spec (to_lower (nm y)) kw) as [E|E]; [now left|right; now apply IH].
Qed.
Lemma field_found fs kw : to_lower kw = kw -> (exists d, find_field fs kw = Some (Some d)) \/
  (find_field fs kw = None /\ ~ In kw (map to_lower (flat_map (fun f => idents (fst f)) fs))).
Proof.
  intros L. induction fs as [|[ids t] fs IH]; cbn [find_field flat_map fst]; [right; split; [reflexivity|intros []]|].
  unfold ident_list_find. destruct (find_name i_name ids kw) as [i|] eqn:F.
  - left. destruct (found_names i_name (fun d => i_name (d_ident d)) ids (map (fun i => mkDecl i NField) ids) kw i L) as (d & E); [|exact F|].
    + rewrite map_map. reflexivity.
    + exists d. unfold decls_find. now rewrite E.
  - destruct IH as [IH|[IH N]]; [now left|right]. split; [exact IH|]. rewrite map_app, in_app_iff. intros [J|J]; [|contradiction].
    destruct (found_name i_name ids kw L) as [(x & X)|[_ X]]; [congruence|now apply X].
Qed.
Lemma decls_one d kw : to_lower kw = kw -> to_lower (i_name (d_ident d)) = kw -> decls_find [d] kw = Some d.
Proof. intros L E. unfold decls_find. cbn [find_name]. rewrite L, E. destruct (runes_eqb_spec kw kw); congruence. Qed.
Lemma cmethod_name_ident x : cmethod_name x = i_name (method_ident x).
Proof. destruct x as [[[]| |] ds]; reflexivity. Qed.
Lemma cprop_name_ident p : cprop_name p = i_name (prop_ident p).
Proof. destruct p; reflexivity. Qed.
Lemma method_found ms kw : to_lower kw = kw -> (exists d, find_method ms kw = Some (Some d)) \/
  (find_method ms kw = None /\ ~ In kw (map to_lower (map cmethod_name ms))).
Proof.
  intros L. induction ms as [|x ms IH]; cbn [find_method map]; [right; split; [reflexivity|intros []]|]. rewrite cmethod_name_ident.
  destruct (runes_eqb_spec (to_lower (i_name (method_ident x))) kw) as [E|E].
  - left. exists (mkDecl (method_ident x) NMethod). now rewrite decls_one.
  - destruct IH as [IH|[IH N]]; [now left|right]. split; [exact IH|]. intros [J|J]; auto.
Qed.
Lemma prop_found ps kw : to_lower kw = kw -> (exists d, find_prop ps kw = Some (Some d)) \/
  (find_prop ps kw = None /\ ~ In kw (map to_lower (map cprop_name ps))).
Proof.
  intros L. induction ps as [|x ps IH]; cbn [find_prop map]; [right; split; [reflexivity|intros []]|]. rewrite cprop_name_ident.
  destruct (runes_eqb_spec (to_lower (i_name (prop_ident x))) kw) as [E|E].
  - left. exists (mkDecl (prop_ident x) NProp). now rewrite decls_one.
  - destruct IH as [IH|[IH N]]; [now left|right]. split; [exact IH|]. intros [J|J]; auto.
Qed.
Lemma member_found l kw : to_lower kw = kw -> In kw (map to_lower (flat_map members_of l)) -> exists d, find_in_sections true l kw = Some (Some d).
Proof.
  intros L. induction l as [|[v fs ms ps] l IH]; [intros []|]. cbn [flat_map members_of find_in_sections negb andb]. rewrite !map_app, !in_app_iff.
  destruct (field_found fs kw L) as [(d & ->)|[-> Nf]]; [eauto|]. destruct (method_found ms kw L) as [(d & ->)|[-> Nm]]; [eauto|].
  destruct (prop_found ps kw L) as [(d & ->)|[-> Np]]; [eauto|]. tauto.
Qed.
Lemma bare_names_inv a b : map bare_ident a = map bare_ident b -> idents a = idents b.
Proof. intros E. apply (f_equal (map i_name)) in E. unfold idents. rewrite !map_map in E. exact E. Qed.
Lemma members_bare x : members_of (bare_csection x) = members_of x.
Proof.
  destruct x as [v fs ms ps]. cbn [bare_csection members_of]. f_equal; [|f_equal].
  - rewrite flat_map_concat_map, map_map, <- flat_map_concat_map. apply flat_map_ext. intros [ids t]. cbn [fst]. unfold idents. now rewrite map_map.
  - rewrite map_map. apply map_ext. intros [[[]| |] ds]; reflexivity.
  - rewrite map_map. apply map_ext. intros []; reflexivity.
Qed.
Lemma members_of_bare l l' : map bare_csection l = map bare_csection l' -> flat_map members_of l = flat_map members_of l'.
Proof.
  intros E. assert (X : forall l, flat_map members_of l = flat_map members_of (map bare_csection l)).
  { intros k. rewrite !flat_map_concat_map, map_map. f_equal. apply map_ext. intros x. now rewrite members_bare. }
  rewrite (X l), (X l'), E. reflexivity.
Qed.

(** ** The words at which the lists of a class end *)
Definition vis_at (w : ttype * gostring) : bool := str_in (to_upper (snd w)) visibility_words.
Lemma visibility_w t : visibility_break t = vis_at (word_of t).
Proof. reflexivity. Qed.
Definition pb (w : ttype * gostring) : bool := vis_at w || weqb w (wkey "END").
Definition mb (w : ttype * gostring) : bool := weqb w (wkey "PROPERTY") || pb w.
Definition fb (w : ttype * gostring) : bool :=
  existsb (weqb w) (map wkey ["FUNCTION"; "PROCEDURE"; "CONSTRUCTOR"; "DESTRUCTOR"]%string) || mb w.
Lemma property_break_w t : property_break t = pb (word_of t).
Proof. unfold property_break, pb. cbn [p_some]. rewrite visibility_w, kw_w. now destruct (vis_at _), (weqb _ _). Qed.
Lemma method_break_w t : method_break t = mb (word_of t).
Proof. unfold method_break, mb. cbn [p_some]. rewrite property_break_w, kw_w. now destruct (weqb _ _), (pb _). Qed.
Lemma field_break_w t : field_list_break t = fb (word_of t).
Proof.
  unfold field_list_break, fb. cbn [p_some map existsb]. rewrite method_break_w, !kw_w.
  repeat match goal with |- context [weqb ?a ?b] => destruct (weqb a b) end; try reflexivity. now destruct (mb _).
Qed.
Lemma vis_ascii w : all_ascii (snd w) = true -> str_in (map ascii_up (snd w)) visibility_words = false -> vis_at w = false.
Proof. intros A E. unfold vis_at. now rewrite to_upper_ascii by (now apply all_ascii_spec). Qed.
Lemma str_in_not x l : ~ In x l -> str_in x l = false.
Proof.
  intros N. destruct (str_in x l) eqn:E; [|reflexivity]. exfalso. apply N. apply existsb_exists in E as (y & J & E). apply runes_equal_eq in E as ->. exact J.
Qed.
Lemma str_in_yes x l : In x l -> str_in x l = true.
Proof. intros J. apply existsb_exists. exists x. split; [exact J|now apply runes_equal_eq]. Qed.
(** What may follow a section. *)
Definition section_stop (w : ttype * gostring) : Prop := w = wkey "END" \/ exists v, w = wident v /\ In (to_upper v) visibility_words.
Lemma stop_pb w : section_stop w -> pb w = true.
Proof.
  intros [->|(v & -> & J)]; unfold pb, vis_at; cbn [snd wident].
  - apply orb_true_iff. right. reflexivity.
  - now rewrite (str_in_yes _ _ J).
Qed.
Lemma stop_type w : section_stop w -> fst w = ReservedWord \/ fst w = Identifier.
Proof. intros [->|(v & -> & J)]; auto. Qed.
Lemma stop_semi w : section_stop w -> w <> wsym ";".
Proof. intros [->|(v & -> & J)]; discriminate. Qed.
Lemma upper_rs x : all_ascii (rs x) = true -> map ascii_up (rs x) = rs x -> to_upper (rs x) = rs x.
Proof. intros A E. now rewrite to_upper_ascii by (now apply all_ascii_spec). Qed.


(** ** Lists without separators *)
Section Runs.
Context {X : Type} (W : X -> words) (bare : X -> X) (P : X -> scope -> ttype * gostring -> Prop) (beh : X -> scope -> scope)
  (fn : list X -> prog (option (list X))) (term : predicator) (w : ttype * gostring)
  (Inv : pst -> Prop) (follow : ttype * gostring -> Prop).
(** [fn] reads an element behind those of [pre] and appends it. *)
Definition item (pre : list X) (x : X) : Prop := forall B (k : option (list X) -> prog B) acc sc s Q after rest,
  map bare acc = map bare pre -> Inv s -> in_scope sc s (W x ++ after :: rest) -> P x sc weof -> follow after ->
  (forall x' s1, bare x' = bare x -> Inv s1 -> in_scope (beh x sc) s1 (after :: rest) -> wp (k (Some (acc ++ [x']))) s1 Q) ->
  wp (Bind (fn acc) k) s Q.
Context (Tw : forall t, word_of t = w -> term t = true) (Fw : follow w).
Lemma d_run {B} (k : list X -> prog B) l : forall x pre fuel acc sc s Q rest, length l < fuel -> map bare acc = map bare pre -> Inv s ->
  (forall p y q, x :: l = p ++ y :: q -> item (pre ++ p) y) ->
  (forall y, In y l -> exists v ws, W y = v :: ws /\ follow v /\ forall t, word_of t = v -> term t = false) ->
  in_scope sc s (flat_map W (x :: l) ++ w :: rest) -> in_turn P beh weof weof (x :: l) sc ->
  (forall l' s1, map bare l' = map bare (x :: l) -> Inv s1 -> in_scope (behind_all beh (x :: l) sc) s1 (w :: rest) -> wp (k (acc ++ l')) s1 Q) ->
  wp (Bind (until fuel term None fn acc) k) s Q.
Proof.
  induction l as [|y l IH]; intros x pre fuel acc sc s Q rest Lf Ba Is El Fi I G K;
    (destruct fuel as [|fuel]; [cbn in Lf; lia|]); unfold until; cbn [loop]; unfold until_step at 1; fl; destruct G as [G1 G2].
  - cbn [flat_map] in I. rewrite <- app_assoc in I. cbn [app] in I.
    assert (E0 : item pre x) by (specialize (El [] x [] eq_refl); now rewrite app_nil_r in El).
    eapply E0; [exact Ba|exact Is|exact I|exact G1|exact Fw|]. intros x' s1 Bx Is1 I1. fl.
    eapply d_Cur; [exact I1|]. intros t Wt. fl. rewrite (Tw t Wt). fl. apply K; [cbn; now rewrite Bx|exact Is1|exact I1].
  - cbn [flat_map] in I. rewrite <- !app_assoc in I. destruct (Fi y (or_introl eq_refl)) as (v & ws & Ey & Fv & Tv).
    assert (Ew : W y ++ flat_map W l ++ w :: rest = v :: ws ++ flat_map W l ++ w :: rest) by (rewrite Ey; reflexivity).
    rewrite Ew in I.
    assert (E0 : item pre x) by (specialize (El [] x (y :: l) eq_refl); now rewrite app_nil_r in El).
    eapply E0; [exact Ba|exact Is|exact I|exact G1|exact Fv|]. intros x' s1 Bx Is1 I1. fl.
    eapply d_Cur; [exact I1|]. intros t Wt. fl. rewrite (Tv t Wt). fl. rewrite <- Ew in I1.
    apply (IH y (pre ++ [x]) fuel (acc ++ [x']) (beh x sc) s1 Q rest); [cbn in *; lia| |exact Is1| | | |exact G2|].
    + rewrite !map_app, Ba. cbn [map]. now rewrite Bx.
    + intros p z q E. rewrite <- app_assoc. apply (El (x :: p) z q). now rewrite E.
    + intros z J. apply Fi. now right.
    + cbn [flat_map]. rewrite <- app_assoc. exact I1.
    + intros l' s2 Bl Is2 I2. rewrite <- app_assoc. apply (K (x' :: l')); [|exact Is2|exact I2].
      change (bare x' :: map bare l' = bare x :: map bare (y :: l)). now rewrite Bx, Bl.
Qed.
End Runs.
Lemma first_word (ws : words) w rest : exists v vs, ws ++ w :: rest = v :: vs.
Proof. destruct ws; cbn [app]; eauto. Qed.
Lemma d_next_kept {B} sc s Q (k : option token -> prog B) w ws : in_scope sc s (w :: ws) -> ws <> [] ->
  (forall t s1, in_scope sc s1 ws -> kept s s1 -> wp (k t) s1 Q) -> wp (Bind Next k) s Q.
Proof.
  intros I N K. eapply (d_kept Next k s Q (fun _ s1 => in_scope sc s1 ws)); [apply steady_next| |].
  - eapply d_next; [exact I|exact N|]. intros t s1 I1. now apply wp_ret.
  - intros t s1 I1 Hk. now apply (K t).
Qed.
Lemma d_next_tok_kept {B} sc s Q (k : token -> prog B) w w2 ws : in_scope sc s (w :: w2 :: ws) ->
  (forall t s1, word_of t = w2 -> in_scope sc s1 (w2 :: ws) -> kept s s1 -> wp (k t) s1 Q) -> wp (Bind next k) s Q.
Proof.
  intros I K. eapply (d_kept next k s Q (fun t s1 => word_of t = w2 /\ in_scope sc s1 (w2 :: ws))); [apply steady_nexttok| |].
  - eapply d_next_tok; [exact I|]. intros t s1 Wt I1. apply wp_ret. auto.
  - intros t s1 [Wt I1] Hk. now apply (K t).
Qed.

Section Level.
Context (m : nat).
Notation R := (recs_at m).
Context (BT : forall t, length (write_ty st t) < m -> ty_rule text st (r_type R) t).

(** ** Fields *)
Definition write_cfield (f : list ident * typ) : words := match f with (ids, t) => write_idents ids ++ wsym ":" :: write_ty st t end.
Definition bare_cfield (f : list ident * typ) : list ident * typ := match f with (ids, t) => (map bare_ident ids, bare_ty t) end.
Definition cfield_names (f : list ident * typ) : list gostring := match f with (_, t) => type_names t end.
Definition good_cfield (f : list ident * typ) (sc : scope) (after : ttype * gostring) : Prop :=
  match f with
  | (ids, t) =>
      match ids with [] => False | i :: _ => ~ In (to_upper (i_name i)) visibility_words end /\
      finished t = true /\ good_ty st t sc after
  end.
Lemma fb_ident v : ~ In (to_upper v) visibility_words -> fb (wident v) = false.
Proof. intros N. unfold fb, mb, pb, vis_at. cbn [snd wident]. rewrite (str_in_not _ _ N). reflexivity. Qed.
Lemma fb_semi : fb (wsym ";") = false.
Proof. unfold fb, mb, pb. rewrite (vis_ascii (wsym ";")); reflexivity. Qed.
Lemma cfield_element f : length (write_cfield f) <= m ->
  element text write_cfield bare_cfield good_cfield (fun f => declare (cfield_names f)) (class_fields_step R) f.
Proof.
  intros L B k acc sc s Q after rest I G K. destruct f as [[|i ids] t]; [destruct G as [[] _]|]. destruct G as (N & F & G).
  set (l := i :: ids) in *. cbn [write_cfield] in I, L. rewrite <- app_assoc in I. cbn [app] in I. rewrite app_length in L. cbn [length] in L.
  assert (exists ws, write_idents l = wident (i_name i) :: ws) as (ws & Ei) by (destruct ids; unfold write_idents, l; cbn [map commas app]; eauto).
  pose proof I as I0. rewrite Ei in I0. cbn [app] in I0. unfold class_fields_step. fl.
  eapply (d_is text sc s Q field_list_break false); [exact I0|intros t0 W0; rewrite field_break_w, W0; now apply fb_ident|]. fl.
  unfold parse_class_field. eapply d_traced; [exact I0|]. fl.
  eapply (d_idents text sc s Q l); [discriminate|rewrite fuel_level; pose proof (idents_count l); lia| | |exact I|]; [wd|wd|].
  intros ids' s1 Ed I1. fl. eapply d_next; [exact I1|apply app_nonempty; discriminate|]. intros t1 s2 I2. fl.
  eapply (BT t); [lia|exact I2|exact G|]. intros t' s3 Et _ I3. rewrite (finished_left t F) in I3. cbn [app] in I3. fl.
  eapply d_cur; [exact I3|]. intros t2 _. fl. apply K; [|exact I3]. cbn [bare_cfield]. now rewrite Et, (bare_names _ _ Ed).
Qed.
Lemma d_cfields {B} fs (k : list (list ident * typ) -> prog B) sc s Q w rest :
  length (flat_map (fun f => write_cfield f ++ [wsym ";"]) fs) <= m -> fb w = true ->
  in_scope sc s (flat_map (fun f => write_cfield f ++ [wsym ";"]) fs ++ w :: rest) ->
  in_turn good_cfield (fun f => declare (cfield_names f)) (wsym ";") (wsym ";") fs sc ->
  (forall fs' s1, map bare_cfield fs' = map bare_cfield fs -> in_scope (declare (flat_map cfield_names fs) sc) s1 (w :: rest) -> wp (k fs') s1 Q) ->
  wp (Bind (parse_class_field_list R) k) s Q.
Proof.
  intros L Fw I G K. unfold parse_class_field_list. destruct (first_word (flat_map (fun f => write_cfield f ++ [wsym ";"]) fs) w rest) as (v & vs & Ev).
  pose proof I as I0. rewrite Ev in I0. eapply d_traced; [exact I0|].
  eapply (d_list_ended text write_cfield bare_cfield good_cfield (fun f => declare (cfield_names f)) (class_fields_step R) field_list_break (sym ";") (wsym ";") w);
    [intros t0 W0; rewrite field_break_w, W0; apply fb_semi|wd| | | |exact I|exact G|].
  - intros B' k' acc sc' s' Q' r' I' H'. unfold class_fields_step. fl.
    eapply (d_is text sc' s' Q' field_list_break true); [exact I'|intros t0 W0; rewrite field_break_w, W0; exact Fw|]. fl. exact H'.
  - rewrite fuel_level. pose proof (ended_count write_cfield (wsym ";") fs). lia.
  - intros x J. apply cfield_element. pose proof (ended_length write_cfield (wsym ";") x fs J). lia.
  - intros fs' s1 E I1. cbn [app]. eapply d_cur; [exact I1|]. intros t1 _. apply K; [exact E|]. eapply in_scope_le; [apply behind_declare|exact I1].
Qed.

(** ** Methods *)
(** What may follow a method: another one, a property, or the end of the section. *)
Definition method_words_of : list (ttype * gostring) := map wkey ["FUNCTION"; "PROCEDURE"; "CONSTRUCTOR"; "DESTRUCTOR"]%string.
Definition after_method (w : ttype * gostring) : Prop := In w method_words_of \/ w = wkey "PROPERTY" \/ section_stop w.
Lemma vis_word_up v : In (to_upper v) visibility_words -> to_upper (to_upper v) = to_upper v.
Proof.
  intros J. repeat (destruct J as [J|J]; [rewrite <- J; apply upper_rs; reflexivity|]). destruct J.
Qed.
Lemma not_directive w : after_method w -> str_in (to_upper (to_upper (snd w))) class_method_directives = false.
Proof.
  assert (A : forall x, all_ascii (rs x) = true -> map ascii_up (rs x) = rs x -> str_in (rs x) class_method_directives = false ->
    str_in (to_upper (to_upper (snd (wkey x)))) class_method_directives = false).
  { intros x A E N. cbn [snd wkey]. now rewrite !(upper_rs x A E). }
  intros [J|[->|[->|(v & -> & J)]]]; [|now apply A|now apply A|].
  - repeat (destruct J as [<-|J]; [now apply A|]). destruct J.
  - cbn [snd wident]. rewrite (vis_word_up _ J). repeat (destruct J as [J|J]; [rewrite <- J; reflexivity|]). destruct J.
Qed.
Lemma method_word_mb d : In d method_words -> mb (wident (class_word st d)) = false.
Proof.
  intros J. unfold mb, pb, vis_at. cbn [snd wident].
  rewrite (class_upper st) by (apply in_or_app; right; apply in_or_app; now left).
  repeat (destruct J as [<-|J]; [reflexivity|]). destruct J.
Qed.
Lemma d_method_directives {B} ds (k : list gostring -> prog B) sc s Q w rest : length (write_method_directives st ds) <= m -> after_method w ->
  Forall (fun d => In d method_words) ds -> in_scope sc s (wsym ";" :: write_method_directives st ds ++ w :: rest) ->
  (forall s1, in_scope sc s1 (w :: rest) -> wp (k ds) s1 Q) -> wp (Bind (parse_class_method_directive_list R) k) s Q.
Proof.
  intros L Aw Fd I K. unfold parse_class_method_directive_list. fl. eapply (d_is text sc s Q (sym ";") true); [exact I|wd|]. fl.
  eapply d_next; [exact I|apply app_nonempty; discriminate|]. intros t0 s1 I1. fl.
  destruct (first_word (write_method_directives st ds) w rest) as (v & vs & Ev). pose proof I1 as I0. rewrite Ev in I0. eapply d_traced; [exact I0|].
  unfold write_method_directives in I1, L. change (fun d => [wident (class_word st d); wsym ";"]) with (fun d => [wident (class_word st d)] ++ [wsym ";"]) in I1, L.
  eapply (d_list_ended text (fun d => [wident (class_word st d)]) (fun d => d) (fun d _ _ => In d method_words) (fun _ sc => sc) method_directives_step method_break (sym ";") (wsym ";") w);
    [intros t W0; rewrite method_break_w, W0; unfold mb, pb; rewrite (vis_ascii (wsym ";")); reflexivity|wd| | | |exact I1| |].
  - intros B' k' acc sc' s' Q' r' I' H'. unfold method_directives_step. fl. eapply d_cur; [exact I'|]. intros t Wt. fl.
    rewrite value_w, Wt, not_directive by exact Aw. fl. exact H'.
  - rewrite fuel_level. pose proof (ended_count (fun d => [wident (class_word st d)]) (wsym ";") ds). lia.
  - intros d J B' k' acc sc' s' Q' a' r' I' J' H'. unfold method_directives_step. fl. cbn [app] in I'. eapply d_cur; [exact I'|]. intros t Wt. fl.
    rewrite value_w, Wt. cbn [snd wident]. rewrite (class_upper st) by (apply in_or_app; right; apply in_or_app; now left).
    assert (E : to_upper d = d) by (repeat (destruct J' as [<-|J']; [apply upper_rs; reflexivity|]); destruct J').
    rewrite E. change class_method_directives with method_words. rewrite (str_in_yes _ _ J'). fl.
    eapply d_next; [exact I'|discriminate|]. intros t1 s2 I2. fl. now apply H'.
  - clear - Fd. induction Fd as [|d l H _ IH]; cbn [in_turn]; auto.
  - intros l' s2 E I2. rewrite !map_id in E. subst l'. cbn [app]. eapply d_cur; [exact I2|]. intros t1 _. apply K. 
    clear - I2. revert sc I2. induction ds; intros sc I2; [exact I2|]. cbn [behind_all fold_left] in I2. now apply IHds.
Qed.
Lemma d_heading_by {B} h (k : heading -> prog B) sc s Q rest : length (write_heading st h) <= m -> in_scope sc s (write_heading st h ++ wsym ";" :: rest) -> good_heading st h sc ->
  (forall h' s1, bare_heading h' = bare_heading h -> in_scope (declare (heading_names h) sc) s1 (wsym ";" :: rest) -> wp (k h') s1 Q) ->
  wp (Bind (parse_function_heading R) k) s Q.
Proof.
  intros L I G K. destruct h as [f i params ret].
  change (write_heading st (Heading f i params ret)) with (wkey (if f then "FUNCTION" else "PROCEDURE") :: wident (i_name i) :: write_parms st params ++ write_ret ret) in *.
  destruct G as [Gp Gr]. cbn [app length] in I, L. rewrite <- app_assoc in I. rewrite app_length in L.
  unfold parse_function_heading. fl. eapply d_cur; [exact I|]. intros t0 W0. fl. rewrite (proj2 (wkey_inv _ _ W0)).
  assert (EF : (if eqs (rs (if f then "FUNCTION" else "PROCEDURE")) "FUNCTION" then Ret true
    else if eqs (rs (if f then "FUNCTION" else "PROCEDURE")) "PROCEDURE" then Ret false else FailAt t0) = Ret f) by (destruct f; reflexivity).
  rewrite EF. fl. eapply d_expect_next; [exact I|wd|]. intros t1 s1 W1 I1. fl. eapply d_traced; [exact I1|]. fl.
  assert (exists w1 ws1, write_ret ret ++ wsym ";" :: rest = w1 :: ws1 /\ w1 <> wsym "(") as (w1 & ws1 & E1 & N1).
  { destruct ret; cbn [write_ret app]; eexists _, _; (split; [reflexivity|discriminate]). }
  rewrite E1 in I1. eapply (d_params text st m BT params); [intros b s2 Hb; fl; exact Hb|lia|exact I1|auto|exact Gp|].
  intros params' s2 Ep I2. fl. rewrite <- E1 in I2. eapply d_ret; [|exact I2|]; [destruct ret; exact Gr|]. intros ret' s3 Er I3. fl.
  eapply d_cur; [exact I3|]. intros t2 _. apply K; [|exact I3].
  unfold bare_heading. now rewrite (new_ident_bare _ _ W1), Ep, Er.
Qed.
Definition cheading_names (h : cheading) : list gostring :=
  match h with HFunc (Heading _ _ params _) | HCtor _ params => parms_names params | HDtor _ => [] end.
Lemma w_ctor i params : write_cheading st (HCtor i params) = wkey "CONSTRUCTOR" :: wident (i_name i) :: write_parms st params.
Proof. reflexivity. Qed.
Definition cheading_key (h : cheading) : string :=
  match h with HFunc (Heading f _ _ _) => if f then "FUNCTION"%string else "PROCEDURE"%string | HCtor _ _ => "CONSTRUCTOR"%string | HDtor _ => "DESTRUCTOR"%string end.
Lemma cheading_first h : exists ws, write_cheading st h = wkey (cheading_key h) :: ws.
Proof. destruct h as [[]| |]; cbn; eauto. Qed.
Lemma d_cheading {B} h (k : cheading -> prog B) sc s Q rest t0 : word_of t0 = wkey (cheading_key h) ->
  length (write_cheading st h) <= m -> in_scope sc s (write_cheading st h ++ wsym ";" :: rest) -> good_cheading st h sc ->
  (forall h' s1, bare_cheading h' = bare_cheading h -> in_scope (declare (cheading_names h) sc) s1 (wsym ";" :: rest) -> wp (k h') s1 Q) ->
  wp (Bind (let v := to_upper (value t0) in if eqs_any v ["FUNCTION"; "PROCEDURE"]%string then
              h <- parse_function_heading R ;; Ret (HFunc h)
            else if eqs v "CONSTRUCTOR" then parse_constructor_heading R
            else if eqs v "DESTRUCTOR" then parse_destructor_heading
            else Fail EOther) k) s Q.
Proof.
  intros W0 L I G K. cbv zeta. rewrite value_w, W0. cbn [snd wkey].
  assert (E : to_upper (rs (cheading_key h)) = rs (cheading_key h)) by (destruct h as [[[]]| |]; apply upper_rs; reflexivity).
  rewrite E. clear E. destruct h as [h|i params|i].
  - replace (eqs_any (rs (cheading_key (HFunc h))) ["FUNCTION"; "PROCEDURE"]%string) with true by (destruct h as [[]]; reflexivity). fl.
    eapply (d_heading_by h); [destruct h; exact L|destruct h; exact I|destruct h; exact G|]. intros h' s1 E I1. fl. apply K.
    + destruct h', h. cbn [bare_cheading]. now f_equal.
    + destruct h. exact I1.
  - cbn [cheading_key]. ev. fl. rewrite w_ctor in *. cbn [app length] in I, L. unfold parse_constructor_heading. eapply d_traced; [exact I|]. fl.
    eapply d_expect; [exact I|wd|]. intros t1 _. fl. eapply d_next_tok; [exact I|]. intros t2 s1 W2 I1. fl.
    assert (Bi : bare_ident (new_ident t2) = bare_ident i) by (now apply new_ident_bare).
    eapply d_next; [exact I1|apply app_nonempty; discriminate|]. intros t3 s2 I2. fl. destruct params as [l|]; cbn [write_parms app] in I2.
    + rewrite <- app_assoc in I2. cbn [app] in I2. destruct G as [NE G]. cbn [write_parms length] in L. rewrite app_length in L. cbn [length] in L.
      eapply (d_is text sc s2 Q (sym "(") true); [exact I2|wd|]. fl.
      eapply (d_parms text st m BT l _ _ _ _ (wsym ";" :: rest)); [lia|discriminate|exact I2|exact NE|exact G|]. intros l' s3 E I3. fl.
      eapply d_cur; [exact I3|]. intros t4 _. fl. apply K; [|exact I3].
      change (HCtor (bare_ident (new_ident t2)) (Some (map bare_parm l')) = HCtor (bare_ident i) (Some (map bare_parm l))). now rewrite Bi, E.
    + eapply (d_is text sc s2 Q (sym "(") false); [exact I2|wd|]. fl. eapply d_cur; [exact I2|]. intros t4 _. fl. apply K.
      * cbn [bare_cheading option_map]. now rewrite Bi.
      * eapply in_scope_le; [apply declare_nil'|exact I2].
  - cbn [cheading_key]. ev. fl. cbn [write_cheading app] in I. unfold parse_destructor_heading. eapply d_traced; [exact I|]. fl.
    eapply d_expect; [exact I|wd|]. intros t1 _. fl. eapply d_next_tok; [exact I|]. intros t2 s1 W2 I1. fl.
    eapply d_next; [exact I1|discriminate|]. intros t3 s2 I2. fl. eapply d_cur; [exact I2|]. intros t4 _. fl. apply K.
    + cbn [bare_cheading]. now rewrite (new_ident_bare _ _ W2).
    + eapply in_scope_le; [apply declare_nil'|exact I2].
Qed.
Lemma ev_class_method_scope t0 : evolves (
      let v := to_upper (value t0) in
      h <- (if eqs_any v ["FUNCTION"; "PROCEDURE"]%string then
              h <- parse_function_heading R ;; Ret (HFunc h)
            else if eqs v "CONSTRUCTOR" then parse_constructor_heading R
            else if eqs v "DESTRUCTOR" then parse_destructor_heading
            else Fail EOther) ;;
      ds <- parse_class_method_directive_list R ;;
      Ret (ClassMethod h ds)).
Proof.
  pose proof (recs_at_evolve m) as RE. cbv zeta. apply evolves_bind.
  - destruct (eqs_any _ _); [|destruct (eqs _ _); [|destruct (eqs _ _)]].
    + apply evolves_bind; [now apply ev_parse_function_heading|]. intros a. apply evolves_ret.
    + now apply ev_parse_constructor_heading.
    + apply ev_parse_destructor_heading.
    + apply evolves_fail.
  - intros h. apply evolves_bind; [now apply ev_parse_class_method_directive_list|]. intros a. apply evolves_ret.
Qed.
Lemma cmethod_names_of h ds : cmethod_names (ClassMethod h ds) = cheading_names h.
Proof. destruct h as [[]| |]; reflexivity. Qed.
Lemma w_cmethod h ds : write_cmethod st (ClassMethod h ds) = write_cheading st h ++ wsym ";" :: write_method_directives st ds.
Proof. reflexivity. Qed.
Lemma cmethod_item pre x : length (write_cmethod st x) <= m ->
  item (write_cmethod st) bare_cmethod (good_cmethod st) (fun x => declare (cmethod_names x)) (class_methods_step R) (fun _ => True) after_method pre x.
Proof.
  intros L B k acc sc s Q after rest _ _ I G Fa K. destruct x as [h ds]. rewrite w_cmethod in *. rewrite cmethod_names_of in K.
  change (good_cheading st h (enter sc) /\ Forall (fun d => In d method_words) ds) in G. destruct G as [Gh Gd].
  rewrite app_length in L. cbn [length] in L. rewrite <- app_assoc in I. cbn [app] in I. unfold class_methods_step. fl.
  destruct (cheading_first h) as (hs & Eh). pose proof I as I0. rewrite Eh in I0. cbn [app] in I0.
  eapply (d_is text sc s Q method_break false); [exact I0| |].
  { intros t0 W0. rewrite method_break_w, W0. unfold mb, pb. rewrite vis_ascii; destruct h as [[[]]| |]; reflexivity. }
  fl. unfold parse_class_method. eapply d_traced; [exact I0|]. fl. eapply d_expect; [exact I0|wd|]. intros t0 W0. fl.
  eapply (d_scoped text _ _ sc (declare (cheading_names h) (enter sc)) s Q
    (fun x => bare_cmethod x = bare_cmethod (ClassMethod h ds)) _ (after :: rest)); [exact I|apply ev_class_method_scope| |].
  - intros s1 I1. apply wp_last. fl. eapply (d_cheading h); [exact W0|lia|exact I1|exact Gh|]. intros h' s2 E I2. fl.
    eapply d_method_directives; [|exact Fa|exact Gd|exact I2|]; [lia|]. intros s3 I3. fl. apply wp_ret. split; [|exact I3].
    change (ClassMethod (bare_cheading h') ds = ClassMethod (bare_cheading h) ds). now rewrite E.
  - intros x' s3 E I3. eapply d_cur; [exact I3|]. intros t1 _. fl.
    eapply (d_is text _ s3 Q (sym ";") false); [exact I3| |].
    { intros t2 W2. rewrite sym_w, W2. apply weqb_neq. destruct Fa as [J|[->|J]]; [|discriminate|now apply stop_semi].
      repeat (destruct J as [<-|J]; [discriminate|]). destruct J. }
    fl. apply K; [exact E|exact Logic.I|]. eapply in_scope_le; [apply leave_enter|exact I3].
Qed.
Lemma mb_key w : In w method_words_of -> mb w = false.
Proof. intros J. repeat (destruct J as [<-|J]; [unfold mb, pb; rewrite vis_ascii; reflexivity|]). destruct J. Qed.
Lemma run_count {X} (W : X -> words) l : (forall x, In x l -> W x <> []) -> length l <= length (flat_map W l).
Proof.
  induction l as [|x l IH]; intros H; [auto|]. cbn [flat_map length]. rewrite app_length. specialize (H x (or_introl eq_refl)) as Hx.
  assert (1 <= length (W x)) by (destruct (W x); [congruence|cbn; lia]). specialize (IH (fun y J => H y (or_intror J))). lia.
Qed.
Lemma run_length {X} (W : X -> words) x l : In x l -> length (W x) <= length (flat_map W l).
Proof.
  induction l as [|y l IH]; [intros []|]. intros J. cbn [flat_map]. rewrite app_length. destruct J as [->|J]; [lia|]. specialize (IH J). lia.
Qed.
Lemma cmethod_first x : exists w ws, write_cmethod st x = w :: ws /\ In w method_words_of.
Proof.
  destruct x as [h ds]. rewrite w_cmethod. destruct (cheading_first h) as (ws & ->). cbn [app]. eexists _, _. split; [reflexivity|].
  destruct h as [[[]]| |]; cbn; auto.
Qed.
Lemma d_cmethods {B} ms (k : list cmethod -> prog B) sc s Q w rest : length (flat_map (write_cmethod st) ms) <= m -> (w = wkey "PROPERTY" \/ section_stop w) ->
  in_scope sc s (flat_map (write_cmethod st) ms ++ w :: rest) ->
  in_turn (good_cmethod st) (fun x => declare (cmethod_names x)) weof weof ms sc ->
  (forall ms' s1, map bare_cmethod ms' = map bare_cmethod ms -> in_scope (declare (flat_map cmethod_names ms) sc) s1 (w :: rest) -> wp (k ms') s1 Q) ->
  wp (Bind (parse_class_method_list R) k) s Q.
Proof.
  intros L Hw I G K. unfold parse_class_method_list.
  assert (Tw : forall t, word_of t = w -> method_break t = true).
  { intros t Wt. rewrite method_break_w, Wt. unfold mb. destruct Hw as [->|Hw]; [reflexivity|]. rewrite (stop_pb _ Hw). apply orb_true_r. }
  destruct (first_word (flat_map (write_cmethod st) ms) w rest) as (v & vs & Ev). pose proof I as I0. rewrite Ev in I0. eapply d_traced; [exact I0|].
  destruct ms as [|x ms].
  - rewrite fuel_level. unfold until. cbn [loop]. unfold until_step at 1. fl. unfold class_methods_step. fl. cbn [flat_map app] in I.
    eapply (d_is text sc s Q method_break true); [exact I|exact Tw|]. fl. eapply d_cur; [exact I|]. intros t1 _. apply K; [reflexivity|].
    eapply in_scope_le; [apply declare_nil'|exact I].
  - eapply (d_run (write_cmethod st) bare_cmethod (good_cmethod st) (fun x => declare (cmethod_names x)) (class_methods_step R) method_break w (fun _ => True) after_method
      Tw ltac:(destruct Hw; [right; left; assumption|right; right; assumption]) _ ms x []); [|reflexivity|exact Logic.I| | |exact I|exact G|].
    + rewrite fuel_level. pose proof (run_count (write_cmethod st) (x :: ms)) as C. cbn [length] in *.
      assert (forall x0, In x0 (x :: ms) -> write_cmethod st x0 <> []) as C0; [|specialize (C C0); lia].
      intros y _. destruct (cmethod_first y) as (w0 & ws0 & -> & _). discriminate.
    + intros p y q E. apply cmethod_item. pose proof (run_length (write_cmethod st) y (x :: ms)) as C.
      rewrite E in C at 1. specialize (C ltac:(apply in_or_app; right; now left)). lia.
    + intros y _. destruct (cmethod_first y) as (w0 & ws0 & E & J). exists w0, ws0. split; [exact E|]. split; [now left|].
      intros t Wt. rewrite method_break_w, Wt. now apply mb_key.
    + intros l' s1 E _ I1. cbn [app]. eapply d_cur; [exact I1|]. intros t1 _. apply K; [exact E|]. eapply in_scope_le; [apply behind_declare|exact I1].
Qed.
End Level.
End WithUnicode.
