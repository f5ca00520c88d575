(** What the operations on the heap need in order not to panic, and what they keep. *)
From Coq Require Import String List NArith Bool Arith Lia.
From Verif Require Import ListUtil Runes UnicodeFacts LexShape Token Tokenizer LexSpec Ast Ext ExtMain Heap Classes MapSpec MapFacts
  Prog Parser ParseSpec TermSpec.
Import ListNotations.
Local Open Scope list_scope.

(** The units that may have no map *)
Class Unmapped := an_unmapped : gostring -> nat -> Prop.

Section WithUnicode.
Context {U : Unicode} {unmapped : Unmapped}.
Variable lax : bool.
Local Notation node_there := (node_there unmapped).
Local Notation declared := (declared unmapped).
Local Notation sound := (sound_but unmapped).

Definition chead (o : ctxobj) : ckind * option gostring := (cx_kind o, cx_path o).
Definition no_type (d : decl) : Prop := forall ty, d_node d <> NType ty.

(** What a method may do to the heap.  With [lax], types may be declared and references
    changed. *)
Record grew (h h' : heap) : Prop := mkGrew {
  g_maps : length (h_maps h) <= length (h_maps h');
  g_decls : exists l, h_decls h' = h_decls h ++ l /\ (lax = true \/ Forall no_type l);
  g_reflen : length (h_refs h) <= length (h_refs h');
  g_refs : lax = true \/ exists l, h_refs h' = h_refs h ++ l;
  g_uses : h_uses h' = h_uses h; g_units : h_units h' = h_units h; g_progs : h_progs h' = h_progs h;
  g_ctxs : exists l, map chead (h_ctxs h') = map chead (h_ctxs h) ++ l }.

Lemma grew_refl h : grew h h.
Proof.
  constructor; auto; try (right; exists []; now rewrite app_nil_r); exists []; rewrite app_nil_r; auto.
Qed.
Lemma grew_trans h1 h2 h3 : grew h1 h2 -> grew h2 h3 -> grew h1 h3.
Proof.
  intros [M1 (l1 & D1 & T1) L1 R1 U1 V1 W1 (k1 & C1)] [M2 (l2 & D2 & T2) L2 R2 U2 V2 W2 (k2 & C2)].
  constructor; try congruence; try lia.
  - exists (l1 ++ l2). rewrite D2, D1, app_assoc. split; [reflexivity|].
    destruct T1; [now left|]. destruct T2; [now left|]. right. apply Forall_app. auto.
  - destruct R1 as [?|(a & E1)]; [now left|]. destruct R2 as [?|(b & E2)]; [now left|]. right.
    exists (a ++ b). now rewrite E2, E1, app_assoc.
  - exists (k1 ++ k2). now rewrite C2, C1, app_assoc.
Qed.

Lemma deref_grew h h' d o : grew h h' -> deref h d = Some o -> deref h' d = Some o.
Proof.
  intros [_ (l & E & _) _ _ _ _ _ _]. destruct d as [i|a]; cbn; [auto|]. rewrite E. intros N.
  rewrite nth_error_app1; [exact N|]. eapply nth_lt; eauto.
Qed.

Lemma usable_maps h h' m : length (h_maps h) <= length (h_maps h') -> usable h m -> usable h' m.
Proof.
  intros L. induction m as [a|p a IH|ms IH| |] using dmap_ind'; cbn [usable]; auto.
  - lia.
  - intros [A P]. split; [lia|auto].
  - intros [NE A]. split; [exact NE|]. clear NE. induction ms as [|m ms IHms]; [exact I|].
    inversion IH as [|? ? I1 I2]; subst. destruct A as [A1 A2]. split; [exact (I1 A1)|exact (IHms I2 A2)].
Qed.
Lemma usable_grew h h' m : grew h h' -> usable h m -> usable h' m.
Proof. intros G. apply usable_maps, G. Qed.
Lemma unit_there_grew h h' u : grew h h' -> unit_there h u -> unit_there h' u.
Proof.
  intros G (o & E & P). exists o. rewrite (g_units _ _ G). split; [exact E|]. eapply usable_grew; eauto.
Qed.
Lemma node_there_grew h h' k n : grew h h' -> node_there h k n -> node_there h' k n.
Proof.
  intros G. destruct n; cbn; auto.
  - intros (o & E & P). exists o. rewrite (g_uses _ _ G). eauto using unit_there_grew.
  - intros [H|H]; [left; now apply (unit_there_grew h)|now right].
  - intros (o & E & P). exists o. rewrite (g_progs _ _ G). split; [exact E|]. eapply usable_grew; eauto.
Qed.
Lemma declared_grew h h' k d : grew h h' -> declared h k d -> declared h' k d.
Proof.
  intros G (o & E & L & N). exists o. split; [eapply deref_grew; eauto|]. split; [exact L|].
  eapply node_there_grew; eauto.
Qed.

Definition entries_ok (h : heap) (m : mapobj) : Prop := Forall (fun e => exists d, snd e = Some d /\ declared h (fst e) d) m.
Definition ctx_ok (h : heap) (o : ctxobj) : Prop := (forall p, cx_kind o <> KStack p) /\ usable h (cx_map o).
Lemma entries_grew h h' m : grew h h' -> entries_ok h m -> entries_ok h' m.
Proof.
  intros G F. eapply Forall_impl; [|exact F]. intros e (d & E & D). exists d. split; [exact E|].
  eapply declared_grew; eauto.
Qed.
Lemma ctx_ok_grew h h' o : grew h h' -> ctx_ok h o -> ctx_ok h' o.
Proof. intros G [A B]. split; [exact A|]. eapply usable_grew; eauto. Qed.
Lemma sound_same h h' : grew h h' -> h_ctxs h' = h_ctxs h -> h_maps h' = h_maps h -> sound h -> sound h'.
Proof.
  intros G C M [A B]. split.
  - rewrite C. eapply Forall_impl; [|exact A]. intros o. now apply ctx_ok_grew.
  - rewrite M. eapply Forall_impl; [|exact B]. intros m. now apply entries_grew.
Qed.

(** ** Looking up *)
Lemma mget_in k m v : mget k m = Some v -> In (k, v) m.
Proof.
  induction m as [|[k2 v2] m IH]; cbn; [discriminate|]. destruct (runes_equal k k2) eqn:E2.
  - intros [= ->]. apply runes_equal_eq in E2 as ->. now left.
  - intros E. right. auto.
Qed.
Lemma impl_get_there h a name : sound h -> a < length (h_maps h) ->
  match impl_get h a name with LPanic => False | LNil => True | LFound d => declared h (to_lower name) d end.
Proof.
  intros [_ B] L. unfold impl_get. destruct (nth_error (h_maps h) a) as [m|] eqn:E.
  - destruct (mget (regularize name) m) as [[d|]|] eqn:G; auto. apply mget_in in G as I.
    apply nth_error_In in E. rewrite Forall_forall in B. specialize (B _ E). rewrite Forall_forall in B.
    destruct (B _ I) as (d' & E' & D). cbn in E'. injection E' as <-. exact D.
  - apply nth_error_None in E. lia.
Qed.
Lemma find_index_lt {A} (f : A -> bool) l : forall i n, find_index f i l = Some n -> i <= n < i + length l.
Proof.
  induction l as [|x l IH]; intros i n; cbn; [discriminate|]. destruct (f x).
  - intros [= ->]. lia.
  - intros E. apply IH in E. lia.
Qed.
Lemma emb_declared h k i : i < length embedded -> declared h k (Emb i).
Proof.
  intros L. destruct (nth_error embedded i) as [e|] eqn:E; [|apply nth_error_None in E; lia].
  exists (embedded_decl (fst e) (snd e)). unfold deref. rewrite E. repeat split. discriminate.
Qed.
Lemma embedded_get_there h k name d : embedded_get name = Some d -> declared h k d.
Proof.
  unfold embedded_get. destruct (find_index _ 0 embedded) as [i|] eqn:E; [|discriminate]. intros [= <-].
  apply find_index_lt in E. apply emb_declared. lia.
Qed.
Lemma embedded_type_there h key k name d : embedded_type_decl k name = Some d -> declared h key d.
Proof.
  unfold embedded_type_decl. destruct (find_index _ 0 embedded) as [i|] eqn:E; [|discriminate]. intros [= <-].
  apply find_index_lt in E. apply emb_declared. lia.
Qed.
Lemma dget_there h m name : sound h -> usable h m ->
  match dget h m name with LPanic => False | LNil => True | LFound d => declared h (to_lower name) d end.
Proof.
  intros S. induction m as [a|p a IH|ms IH| |] using dmap_ind'; cbn [usable].
  - intros L. now apply impl_get_there.
  - intros [L P]. cbn [dget]. pose proof (impl_get_there h a name S L) as G.
    destruct (impl_get h a name); auto. now apply IH.
  - intros [_ A]. rewrite dget_composite. induction ms as [|m ms IHms]; [exact I|].
    inversion IH as [|? ? I1 I2]; subst. destruct A as [A1 A2]. cbn [map first_found].
    specialize (I1 A1). destruct (dget h m name); [exact (IHms I2 A2)|exact I1|exact I1].
  - intros _. cbn [dget]. destruct (embedded_get name) eqn:E; [|exact I]. eapply embedded_get_there; eauto.
  - intros [].
Qed.

Lemma ctx_path_inv h c p : sound h -> ctx_path h c = Some p ->
  exists o, nth_error (h_ctxs h) c = Some o /\ cx_path o = Some p /\ ctx_ok h o.
Proof.
  intros [A _]. unfold ctx_path. cbn [ctx_path_fuel]. destruct (nth_error (h_ctxs h) c) as [o|] eqn:E; [|discriminate].
  rewrite Forall_forall in A. assert (K : ctx_ok h o) by (apply A; eapply nth_error_In; eauto).
  destruct (cx_path o) as [q|] eqn:Q.
  - intros [= ->]. eauto.
  - destruct (cx_kind o) eqn:K2; try discriminate. exfalso. destruct K as [K _]. eapply K; eauto.
Qed.
Lemma ctx_path_of h c o p : nth_error (h_ctxs h) c = Some o -> cx_path o = Some p -> ctx_path h c = Some p.
Proof. intros E Q. unfold ctx_path. cbn [ctx_path_fuel]. now rewrite E, Q. Qed.
Lemma nth_head h h' c o : grew h h' -> nth_error (h_ctxs h) c = Some o ->
  exists o', nth_error (h_ctxs h') c = Some o' /\ chead o' = chead o.
Proof.
  intros G E. destruct (g_ctxs _ _ G) as (l & M).
  assert (N : nth_error (map chead (h_ctxs h')) c = Some (chead o)).
  { rewrite M. rewrite nth_error_app1; [now apply map_nth_error|].
    rewrite map_length. eapply nth_lt; eauto. }
  destruct (nth_error (h_ctxs h') c) as [o'|] eqn:E'.
  - rewrite (map_nth_error chead _ _ E') in N. injection N as N. exists o'. split; [reflexivity|]. unfold chead. congruence.
  - apply nth_error_None in E'. rewrite (proj2 (nth_error_None _ _)) in N; [discriminate|]. now rewrite map_length.
Qed.
Lemma ctx_path_grew h h' c p : sound h -> grew h h' -> ctx_path h c = Some p -> ctx_path h' c = Some p.
Proof.
  intros S G E. destruct (ctx_path_inv _ _ _ S E) as (o & N & Q & _).
  destruct (nth_head _ _ _ _ G N) as (o' & N' & C). eapply ctx_path_of; eauto. unfold chead in C. congruence.
Qed.
Lemma ctx_get_there h c p name : sound h -> ctx_path h c = Some p ->
  match ctx_get h c name with LPanic => False | LNil => True | LFound d => declared h (to_lower name) d end.
Proof.
  intros S E. destruct (ctx_path_inv _ _ _ S E) as (o & N & _ & K & W). unfold ctx_get. cbn [ctx_get_fuel].
  rewrite N. destruct (cx_kind o) eqn:K2.
  - now apply dget_there.
  - now apply dget_there.
  - exfalso. eapply K; eauto.
Qed.

(** ** Types *)
Lemma ref_type_grew h h' ti ty : lax = false -> grew h h' -> ti_ref ti < length (h_refs h) ->
  ref_type h' ti = Some ty -> ref_type h ti = Some ty.
Proof.
  intros LX G L. unfold ref_type, ref_of. destruct (g_refs _ _ G) as [?|(l & E)]; [congruence|].
  rewrite E, nth_error_app1 by exact L. destruct (nth_error (h_refs h) (ti_ref ti)) as [[d|]|]; auto.
  destruct d as [i|a]; [auto|]. cbn. destruct (g_decls _ _ G) as (l2 & E2 & [?|F]); [congruence|].
  rewrite E2. destruct (Nat.lt_ge_cases a (length (h_decls h))).
  - rewrite nth_error_app1 by assumption. auto.
  - rewrite nth_error_app2 by assumption. destruct (nth_error l2 _) as [o|] eqn:E3; [|discriminate].
    apply nth_error_In in E3. rewrite Forall_forall in F. specialize (F _ E3).
    destruct (d_node o) eqn:N; try discriminate. exfalso. eapply F; eauto.
Qed.
Lemma short_grew h h' : lax = false -> grew h h' -> forall n ty, short n h ty -> short n h' ty.
Proof.
  intros LX G. induction n as [|n IH]; intros ty; cbn [short]; [auto|]. intros [C L]. split.
  - intros c E. specialize (C c E). pose proof (g_reflen _ _ G). lia.
  - intros ty' E. apply IH, L. inversion E; subst.
    + constructor. apply (ref_type_grew h h'); auto.
    + constructor. apply (ref_type_grew h h'); auto.
    + constructor.
    + constructor. apply (ref_type_grew h h'); auto.
Qed.
Lemma short_le h n : forall m ty, n <= m -> short n h ty -> short m h ty.
Proof.
  induction n as [|n IH]; intros [|m] ty L; cbn [short]; try (now intros []); try lia.
  intros [C E]. split; [exact C|]. intros ty' Le. apply IH; [lia|]. auto.
Qed.
Lemma shallow_grew n h h' : lax = false -> grew h h' -> shallow n h -> shallow n h'.
Proof.
  intros LX G Sh d o ty E N. apply (short_grew h h'); auto.
  destruct (deref h d) as [o'|] eqn:E'.
  - rewrite (deref_grew _ _ _ _ G E') in E. injection E as <-. eauto.
  - exfalso. destruct d as [i|a]; cbn in *; [congruence|].
    destruct (g_decls _ _ G) as (l & E2 & [?|F]); [congruence|]. apply nth_error_None in E'.
    rewrite E2, nth_error_app2 in E by exact E'. apply nth_error_In in E. rewrite Forall_forall in F.
    exact (F _ E _ N).
Qed.
Lemma ref_type_short n h ti ty : shallow n h -> ref_type h ti = Some ty -> short n h ty.
Proof.
  unfold ref_type. intros Sh. destruct (ref_of h ti) as [d|]; [|discriminate].
  destruct (deref h d) as [o|] eqn:E; [|discriminate]. destruct (d_node o) eqn:N; try discriminate.
  intros [= ->]. eauto.
Qed.
Lemma short_cell n h ty ti : shallow n h -> ti_ref ti < length (h_refs h) ->
  ty = TId ti \/ (exists p, ty = TFile p ti) \/ (exists ps mem, ty = TClass (Some (ti :: ps)) mem) -> short (S n) h ty.
Proof.
  intros Sh L E. cbn [short]. split.
  - intros c C. destruct E as [->|[(p & ->)|(ps & mem & ->)]]; cbn in C; injection C as <-; exact L.
  - intros ty' Le. destruct E as [->|[(p & ->)|(ps & mem & ->)]]; inversion Le; subst; eauto using ref_type_short.
Qed.
Lemma short_leaf n h ty : cell_of ty = None -> (forall ty', ~ leads h ty ty') -> short (S n) h ty.
Proof.
  intros C L. cbn [short]. split; [congruence|]. intros ty' E. destruct (L _ E).
Qed.
Lemma type_is_done n h q : forall ty, short n h ty -> forall f, n <= f -> type_is f h q ty <> None.
Proof.
  induction n as [|n IH]; intros ty Sh; [destruct Sh|]. intros [|f] Le; [lia|]. cbn [short] in Sh.
  destruct Sh as [_ L]. destruct ty; cbn [type_is]; try discriminate.
  - destruct (ref_type h t) eqn:E; [|discriminate]. apply IH; [|lia]. apply L. now constructor.
  - destruct q; try discriminate; (apply IH; [apply L; constructor|lia]).
  - destruct (ref_type h t) eqn:E; [|discriminate]. apply IH; [|lia]. apply L. now constructor.
Qed.
Lemma parent_leads h her mem her' mem' : parent_class h her = Some (her', mem') ->
  leads h (TClass her mem) (TClass her' mem').
Proof.
  unfold parent_class. destruct her as [[|p ps]|]; try discriminate.
  destruct (ref_type h p) as [[]|] eqn:E; try discriminate. intros [= <- <-]. now constructor.
Qed.
Lemma find_member_done h name n : forall her mem private, short n h (TClass her mem) -> forall f, n <= f ->
  find_member f h her mem name private <> None.
Proof.
  induction n as [|n IH]; intros her mem private Sh; [destruct Sh|]. intros [|f] Le; [lia|].
  cbn [short] in Sh. destruct Sh as [_ L]. cbn [find_member].
  destruct (find_in_sections _ _ _); [discriminate|].
  destruct (parent_class h her) as [[her' mem']|] eqn:E; [|discriminate]. apply IH; [|lia].
  apply L. now apply parent_leads.
Qed.
Lemma find_property_done h name n : forall her mem asc, short n h (TClass her mem) -> forall f, n <= f ->
  find_property f h her mem name asc <> None.
Proof.
  induction n as [|n IH]; intros her mem asc Sh; [destruct Sh|]. intros [|f] Le; [lia|].
  cbn [short] in Sh. destruct Sh as [_ L]. cbn [find_property].
  destruct (prop_in_sections _ _); [discriminate|]. destruct asc; [|discriminate].
  destruct (parent_class h her) as [[her' mem']|] eqn:E; [|discriminate]. apply IH; [|lia].
  apply L. now apply parent_leads.
Qed.
Lemma short_class_mem n h her mem mem' : short n h (TClass her mem) -> short n h (TClass her mem').
Proof.
  destruct n; cbn [short]; [auto|]. intros [C L]. split; [destruct her as [[]|]; exact C|].
  intros ty' E. inversion E; subst. apply L. now constructor.
Qed.

(** ** Members found are fields, methods and properties *)
Lemma decls_find_in l name d : decls_find l name = Some d -> In d l.
Proof.
  unfold decls_find. induction l as [|x l IH]; cbn; [discriminate|]. destruct (runes_equal _ _).
  - intros [= ->]. now left.
  - auto.
Qed.
Lemma find_field_member fs kw d : find_field fs kw = Some (Some d) -> no_type d.
Proof.
  induction fs as [|[ids t] fs IH]; cbn; [discriminate|]. destruct (ident_list_find ids kw); [|auto].
  intros [= E]. apply decls_find_in in E. apply in_map_iff in E as (i2 & <- & _). discriminate.
Qed.
Lemma find_method_member fs kw d : find_method fs kw = Some (Some d) -> no_type d.
Proof.
  induction fs as [|m fs IH]; cbn [find_method]; [discriminate|]. destruct (runes_equal _ kw); [|auto].
  intros [= E]. apply decls_find_in in E. destruct E as [<-|[]]. discriminate.
Qed.
Lemma find_prop_member fs kw d : find_prop fs kw = Some (Some d) -> no_type d.
Proof.
  induction fs as [|m fs IH]; cbn [find_prop]; [discriminate|]. destruct (runes_equal _ kw); [|auto].
  intros [= E]. apply decls_find_in in E. destruct E as [<-|[]]. discriminate.
Qed.
Lemma find_in_sections_member pr ss kw d : find_in_sections pr ss kw = Some (Some d) -> no_type d.
Proof.
  induction ss as [|[v fs ms ps] ss IH]; cbn [find_in_sections]; [discriminate|].
  destruct (negb pr && is_private v); [exact IH|].
  destruct (find_field fs kw) as [r|] eqn:E1; [intros [= ->]; eapply find_field_member; eauto|].
  destruct (find_method ms kw) as [r|] eqn:E2; [intros [= ->]; eapply find_method_member; eauto|].
  destruct (find_prop ps kw) as [r|] eqn:E3; [intros [= ->]; eapply find_prop_member; eauto|exact IH].
Qed.
Lemma find_member_member f h name d : forall her mem pr, find_member f h her mem name pr = Some (Some d) -> no_type d.
Proof.
  induction f as [|f IH]; intros her mem pr; cbn [find_member]; [discriminate|].
  destruct (find_in_sections _ _ _) as [r|] eqn:E; [intros [= ->]; eapply find_in_sections_member; eauto|].
  destruct (parent_class h her) as [[her' mem']|]; [eauto|discriminate].
Qed.

(** ** Changes *)
Definition good_step (h h' : heap) : Prop := sound h' /\ grew h h'.
Lemma good_refl h : sound h -> good_step h h.
Proof. split; [assumption|apply grew_refl]. Qed.

Lemma good_refs h r : sound h -> good_step h (with_refs (h_refs h ++ [r]) h).
Proof.
  intros S. assert (G : grew h (with_refs (h_refs h ++ [r]) h)).
  { constructor; auto; cbn; try (exists []; now rewrite app_nil_r).
    - exists []. rewrite app_nil_r. auto.
    - rewrite app_length. lia.
    - right. eauto. }
  split; [|exact G]. now apply (sound_same h).
Qed.
Lemma good_decls h d : sound h -> lax = true \/ no_type d -> good_step h (with_decls (h_decls h ++ [d]) h).
Proof.
  intros S N. assert (G : grew h (with_decls (h_decls h ++ [d]) h)).
  { constructor; auto; cbn; try (exists []; now rewrite app_nil_r).
    - exists [d]. split; [reflexivity|]. destruct N; [now left|right]. auto.
    - right. exists []. now rewrite app_nil_r. }
  split; [|exact G]. now apply (sound_same h).
Qed.
Lemma good_fwds h v : sound h -> good_step h (with_fwds v h).
Proof.
  intros S. assert (G : grew h (with_fwds v h)).
  { constructor; auto; cbn; try (exists []; now rewrite app_nil_r).
    - exists []. rewrite app_nil_r. auto.
    - right. exists []. now rewrite app_nil_r. }
  split; [|exact G]. now apply (sound_same h).
Qed.
Lemma good_trans h1 h2 h3 : good_step h1 h2 -> good_step h2 h3 -> good_step h1 h3.
Proof. intros [S1 G1] [S2 G2]. split; [exact S2|]. eapply grew_trans; eauto. Qed.
Lemma good_setref h c d : sound h -> lax = true -> good_step h (with_refs (set_nth c d (h_refs h)) h).
Proof.
  intros S LX. assert (G : grew h (with_refs (set_nth c d (h_refs h)) h)).
  { constructor; auto; cbn; try (exists []; now rewrite app_nil_r).
    - exists []. rewrite app_nil_r. auto.
    - now rewrite set_nth_length. }
  split; [|exact G]. now apply (sound_same h).
Qed.

(** A map object gets one more entry. *)
Lemma mput_entries h k d m : declared h k d -> entries_ok h m -> entries_ok h (mput k (Some d) m).
Proof.
  intros D F. induction F as [|[k' v'] m E F IH]; cbn [mput].
  - constructor; [|constructor]. exists d. now split.
  - destruct (runes_equal k k') eqn:Ek; constructor; auto. apply runes_equal_eq in Ek as <-. exists d. now split.
Qed.
Lemma set_nth_forall {A} (P : A -> Prop) n v l : P v -> Forall P l -> Forall P (set_nth n v l).
Proof.
  intros Pv F. revert n. induction F as [|x l Px F IH]; intros [|n]; cbn; auto.
Qed.
Lemma good_put h a m k d : sound h -> nth_error (h_maps h) a = Some m -> declared h k d ->
  good_step h (with_maps (set_nth a (mput k (Some d) m) (h_maps h)) h).
Proof.
  intros S E D. assert (G : grew h (with_maps (set_nth a (mput k (Some d) m) (h_maps h)) h)).
  { constructor; auto; cbn; try (exists []; now rewrite app_nil_r).
    - now rewrite set_nth_length.
    - exists []. rewrite app_nil_r. auto.
    - right. exists []. now rewrite app_nil_r. }
  split; [|exact G]. destruct S as [A B]. split; cbn.
  - eapply Forall_impl; [|exact A]. intros o. now apply ctx_ok_grew.
  - apply set_nth_forall.
    + apply (entries_grew h); [exact G|]. apply mput_entries; [exact D|]. rewrite Forall_forall in B.
      apply B. eapply nth_error_In; eauto.
    + eapply Forall_impl; [|exact B]. intros o. now apply entries_grew.
Qed.
Lemma mget_some h k m v : entries_ok h m -> mget k m = Some v -> exists d, v = Some d /\ declared h k d.
Proof.
  intros F G. apply mget_in in G as I. unfold entries_ok in F. rewrite Forall_forall in F.
  exact (F _ I).
Qed.

Lemma impl_set_good ds : forall h a, sound h -> a < length (h_maps h) ->
  Forall (fun p => i_loc (fst p) <> None /\ declared h (to_lower (i_name (fst p))) (snd p)) ds ->
  match impl_set h a ds with SOk h' => good_step h h' | SErr h' _ => good_step h h' | SPanic => False end.
Proof.
  induction ds as [|[i d] ds IH]; intros h a S L F; cbn [impl_set]; [now apply good_refl|].
  inversion F as [|? ? [Li D] F']; subst. cbn in Li, D.
  destruct (nth_error (h_maps h) a) as [m|] eqn:E; [|apply nth_error_None in E; lia].
  assert (M : entries_ok h m).
  { destruct S as [_ B]. rewrite Forall_forall in B. apply B. eapply nth_error_In; eauto. }
  destruct (mget (regularize (i_name i)) m) as [v|] eqn:G.
  - destruct (mget_some _ _ _ _ M G) as (old & -> & o & Eo & Lo & _). rewrite Eo. cbn.
    destruct (i_loc i); [|congruence]. destruct (i_loc (d_ident o)); [|congruence]. now apply good_refl.
  - pose proof (good_put h a m (regularize (i_name i)) d S E D) as P.
    specialize (IH (with_maps (set_nth a (mput (regularize (i_name i)) (Some d) m) (h_maps h)) h) a).
    assert (X : match impl_set (with_maps (set_nth a (mput (regularize (i_name i)) (Some d) m) (h_maps h)) h) a ds with
      | SOk h' => good_step (with_maps (set_nth a (mput (regularize (i_name i)) (Some d) m) (h_maps h)) h) h'
      | SErr h' _ => good_step (with_maps (set_nth a (mput (regularize (i_name i)) (Some d) m) (h_maps h)) h) h'
      | SPanic => False end).
    { apply IH; [apply P| |].
      - cbn. now rewrite set_nth_length.
      - eapply Forall_impl; [|exact F']. intros [i2 d2] [A B]. split; [exact A|]. eapply declared_grew; [apply P|exact B]. }
    destruct (impl_set _ a ds); auto; eapply good_trans; eauto.
Qed.
Lemma dset_good h m ds : sound h -> usable h m ->
  Forall (fun p => i_loc (fst p) <> None /\ declared h (to_lower (i_name (fst p))) (snd p)) ds ->
  match dset h m ds with SOk h' => good_step h h' | SErr h' _ => good_step h h' | SPanic => False end.
Proof.
  intros S W F. induction m as [a|p a IH|ms IH| |] using dmap_ind'; cbn [dset usable] in *.
  - now apply impl_set_good.
  - apply impl_set_good; tauto.
  - destruct ms as [|m ms]; [tauto|]. inversion IH as [|? ? I1 I2]; subst. destruct W as [_ [W _]]. exact (I1 W).
  - now apply good_refl.
  - exact W.
Qed.
Lemma combine_forall {A B} (P : A * B -> Prop) : forall (l1 : list A) (l2 : list B),
  (forall n a b, nth_error l1 n = Some a -> nth_error l2 n = Some b -> P (a, b)) -> Forall P (combine l1 l2).
Proof.
  induction l1 as [|a l1 IH]; intros [|b l2] Hyp; cbn; constructor.
  - now apply (Hyp 0).
  - apply IH. intros n. exact (Hyp (S n)).
Qed.
Lemma map_set_good h m ds : sound h -> usable h m ->
  Forall (fun d => i_loc (d_ident d) <> None /\ node_there h (to_lower (i_name (d_ident d))) (d_node d) /\ (lax = true \/ no_type d)) ds ->
  match map_set h m ds with SOk h' => good_step h h' | SErr h' _ => good_step h h' | SPanic => False end.
Proof.
  intros S W F. unfold map_set, alloc_decls.
  assert (G : grew h (with_decls (h_decls h ++ ds) h)).
  { constructor; auto; cbn; try (exists []; now rewrite app_nil_r).
    - exists ds. split; [reflexivity|]. destruct lax; [now left|right].
      eapply Forall_impl; [|exact F]. intros d (_ & _ & [?|?]); [congruence|assumption].
    - right. exists []. now rewrite app_nil_r. }
  assert (S1 : sound (with_decls (h_decls h ++ ds) h)) by now apply (sound_same h).
  pose proof (dset_good (with_decls (h_decls h ++ ds) h) m
    (combine (map d_ident ds) (map Ptr (seq (length (h_decls h)) (length ds)))) S1) as D.
  assert (X : Forall (fun p => i_loc (fst p) <> None /\ declared (with_decls (h_decls h ++ ds) h) (to_lower (i_name (fst p))) (snd p))
    (combine (map d_ident ds) (map Ptr (seq (length (h_decls h)) (length ds))))).
  { apply combine_forall. intros n i d E1 E2.
    rewrite nth_error_map in E1. destruct (nth_error ds n) as [x|] eqn:Ex; [|discriminate]. injection E1 as <-.
    rewrite nth_error_map in E2. destruct (nth_error (seq _ _) n) as [y|] eqn:Ey; [|discriminate]. injection E2 as <-.
    assert (Ly : y = length (h_decls h) + n).
    { pose proof (nth_lt _ _ _ Ey) as L. rewrite seq_length in L.
      rewrite (nth_error_nth' _ 0) in Ey by (rewrite seq_length; exact L). rewrite seq_nth in Ey by exact L. congruence. }
    rewrite Forall_forall in F. destruct (F x (nth_error_In _ _ Ex)) as (A & B & _). cbn. split; [exact A|].
    exists x. cbn. split; [|split; [exact A|]].
    - rewrite Ly, nth_error_app2 by lia. now replace (length (h_decls h) + n - length (h_decls h)) with n by lia.
    - eapply node_there_grew; eauto. }
  specialize (D (usable_grew _ _ _ G W) X).
  destruct (dset _ m _); auto; (eapply good_trans; [split; [exact S1|exact G]|exact D]).
Qed.
Lemma ctx_set_good h c p ds : sound h -> ctx_path h c = Some p ->
  Forall (fun d => i_loc (d_ident d) <> None /\ node_there h (to_lower (i_name (d_ident d))) (d_node d) /\ (lax = true \/ no_type d)) ds ->
  match ctx_set h c ds with SOk h' => good_step h h' | SErr h' _ => good_step h h' | SPanic => False end.
Proof.
  intros S E F. destruct (ctx_path_inv _ _ _ S E) as (o & N & _ & _ & W). unfold ctx_set. rewrite N.
  now apply map_set_good.
Qed.
Lemma doverwrite_good h m name d : sound h -> usable h m -> declared h (to_lower name) d ->
  exists h', doverwrite h m name (Some d) = Some h' /\ good_step h h'.
Proof.
  intros S W D.
  assert (I : forall a, a < length (h_maps h) -> exists h', impl_overwrite h a name (Some d) = Some h' /\ good_step h h').
  { intros a L. unfold impl_overwrite. destruct (nth_error (h_maps h) a) as [mm|] eqn:E; [|apply nth_error_None in E; lia].
    eexists. split; [reflexivity|]. now apply good_put. }
  induction m as [a|p a IH|ms IH| |] using dmap_ind'; cbn [doverwrite usable] in *.
  - now apply I.
  - apply I. tauto.
  - destruct ms as [|m ms]; [tauto|]. inversion IH as [|? ? I1 I2]; subst. destruct W as [_ [W _]]. exact (I1 W).
  - exists h. split; [reflexivity|]. now apply good_refl.
  - destruct W.
Qed.
Lemma ctx_overwrite_good h c p name d : sound h -> ctx_path h c = Some p -> declared h (to_lower name) d ->
  exists h', ctx_overwrite h c name (Some d) = Some h' /\ good_step h h'.
Proof.
  intros S E D. destruct (ctx_path_inv _ _ _ S E) as (o & N & _ & _ & W). unfold ctx_overwrite. rewrite N.
  now apply doverwrite_good.
Qed.

Lemma ctx_clone_good h c p : sound h -> ctx_path h c = Some p ->
  exists h' c', ctx_clone h c = Some (h', c') /\ good_step h h' /\ ctx_path h' c' = Some p.
Proof.
  intros S E. destruct (ctx_path_inv _ _ _ S E) as (o & N & Q & K & W). unfold ctx_clone. rewrite N.
  set (o' := match cx_kind o with KStack _ => mkCtx (KProgram []) (Some []) (cx_map o) | _ => o end).
  assert (Eo : o' = o). { unfold o'. destruct (cx_kind o) eqn:K2; auto. exfalso. eapply K; eauto. }
  rewrite Eo. eexists _, _. split; [reflexivity|].
  assert (G : grew h (with_ctxs (h_ctxs h ++ [o]) h)).
  { constructor; auto; cbn; try (exists []; now rewrite app_nil_r).
    - exists []. rewrite app_nil_r. auto.
    - right. exists []. now rewrite app_nil_r.
    - rewrite map_app. eauto. }
  split.
  - split; [|exact G]. destruct S as [A B]. split; cbn.
    + apply Forall_app. split; [|constructor; [|constructor]].
      * eapply Forall_impl; [|exact A]. intros x. now apply ctx_ok_grew.
      * apply (ctx_ok_grew h); [exact G|]. now split.
    + eapply Forall_impl; [|exact B]. intros x. now apply entries_grew.
  - eapply ctx_path_of; [|exact Q]. cbn. rewrite nth_error_app2 by lia. now rewrite Nat.sub_diag.
Qed.

Lemma set_nth_map_same {A B} (f : A -> B) l : forall n v x, nth_error l n = Some x -> f v = f x -> map f (set_nth n v l) = map f l.
Proof.
  induction l as [|y l IH]; intros [|n] v x E F; cbn in *; try discriminate; [injection E as ->; now rewrite F|].
  f_equal. eauto.
Qed.
Lemma put_map_good h c m : sound h -> usable h m -> good_step h (ctx_put_map h c m).
Proof.
  intros S W. unfold ctx_put_map. destruct (nth_error (h_ctxs h) c) as [o|] eqn:E; [|now apply good_refl].
  assert (G : grew h (with_ctxs (set_nth c (mkCtx (cx_kind o) (cx_path o) m) (h_ctxs h)) h)).
  { constructor; auto; cbn; try (exists []; now rewrite app_nil_r).
    - exists []. rewrite app_nil_r. auto.
    - right. exists []. now rewrite app_nil_r.
    - exists []. rewrite app_nil_r. eapply set_nth_map_same; eauto. }
  split; [|exact G]. destruct S as [A B]. split; cbn.
  - apply set_nth_forall.
    + split; cbn; [|apply (usable_grew h); [exact G|exact W]].
      rewrite Forall_forall in A. apply (A o). eapply nth_error_In; eauto.
    + eapply Forall_impl; [|exact A]. intros x. now apply ctx_ok_grew.
  - eapply Forall_impl; [|exact B]. intros x. now apply entries_grew.
Qed.
Lemma new_map_good h : sound h -> good_step h (fst (new_map h)) /\ snd (new_map h) < length (h_maps (fst (new_map h))).
Proof.
  intros S. assert (G : grew h (fst (new_map h))).
  { constructor; auto; cbn; try (exists []; now rewrite app_nil_r).
    - rewrite app_length. lia.
    - exists []. rewrite app_nil_r. auto.
    - right. exists []. now rewrite app_nil_r. }
  split; [|cbn; rewrite app_length; cbn; lia]. split; [|exact G]. destruct S as [A B]. split; cbn.
  - eapply Forall_impl; [|exact A]. intros x. now apply ctx_ok_grew.
  - apply Forall_app. split; [|constructor; constructor].
    eapply Forall_impl; [|exact B]. intros x. now apply entries_grew.
Qed.
Lemma ctx_stack_good h c p : sound h -> ctx_path h c = Some p ->
  exists h' m, ctx_stack h c = Some (h', m) /\ good_step h h' /\ usable h' m.
Proof.
  intros S E. destruct (ctx_path_inv _ _ _ S E) as (o & N & _ & _ & W). unfold ctx_stack, new_chained. rewrite N.
  pose proof (new_map_good h S) as [P L]. destruct (new_map h) as [h1 a]. cbn in P, L.
  eexists _, _. split; [reflexivity|].
  assert (P2 : good_step h1 (ctx_put_map h1 c (DChained (cx_map o) a))).
  { apply put_map_good; [apply P|]. cbn. split; [exact L|]. eapply usable_grew; [apply P|exact W]. }
  split; [eapply good_trans; eauto|]. eapply usable_grew; [apply P2|]. eapply usable_grew; [apply P|exact W].
Qed.
Lemma run_post_good c p : lax = true -> forall l h, sound h -> ctx_path h c = Some p ->
  exists h', run_post c l h = Some h' /\ good_step h h'.
Proof.
  intros LX. induction l as [|[cell name] l IH]; intros h S E; cbn [run_post].
  - exists h. split; [reflexivity|]. now apply good_refl.
  - pose proof (ctx_get_there h c p name S E) as G. destruct (ctx_get h c name) as [|d|]; [auto| |destruct G].
    pose proof (good_setref h cell (Some d) S LX) as P.
    destruct (IH (with_refs (set_nth cell (Some d) (h_refs h)) h)) as (h' & R & P').
    + apply P.
    + eapply ctx_path_grew; [exact S|apply P|exact E].
    + exists h'. split; [exact R|]. eapply good_trans; eauto.
Qed.
End WithUnicode.
