(** References that are set lead to declarations of the names written: the invariant of the
    heap and the rules for the operations of Prog.v. *)
From Coq Require Import String List NArith Bool Arith Lia Relations.
From Verif Require Import ListUtil Runes Token Tokenizer LexShape Ast Ext ExtMain Heap Classes MapSpec MapFacts MapMain Prog Parser RunFacts RefSpec.
Import ListNotations.
Local Open Scope list_scope.

Section WithUnicode.
Context {U : Unicode}.

(** ** Names *)

Lemma alike_refl n : alike n n.
Proof. apply rst_refl. Qed.
Lemma alike_sym a b : alike a b -> alike b a.
Proof. apply rst_sym. Qed.
Lemma alike_trans a b c : alike a b -> alike b c -> alike a c.
Proof. apply rst_trans. Qed.
Lemma alike_lower a : alike a (to_lower a).
Proof. apply rst_step. now left. Qed.
Lemma alike_upper a : alike a (to_upper a).
Proof. apply rst_step. now right. Qed.
Lemma same_lower_alike a b : to_lower a = to_lower b -> alike a b.
Proof. intros E. eapply alike_trans; [apply alike_lower|]. rewrite E. apply alike_sym, alike_lower. Qed.
Lemma same_upper_alike a b : to_upper a = to_upper b -> alike a b.
Proof. intros E. eapply alike_trans; [apply alike_upper|]. rewrite E. apply alike_sym, alike_upper. Qed.
Lemma value_alike t : alike (value t) (raw t).
Proof. unfold value. destruct (t_type t); try apply alike_refl. apply alike_sym, alike_upper. Qed.

Lemma declares_alike h d a b : declares h d a -> alike a b -> declares h d b.
Proof. intros (o & E & A) B. exists o. split; [exact E|]. eapply alike_trans; eassumption. Qed.

(** ** The invariant.  [ns] has the name of each cell. *)

Definition ok (ns : list gostring) (h : heap) (m : mention) : Prop :=
  match m with
  | MType t => nth_error ns (ti_ref t) = Some (i_name (ti_ident t))
  | MName i (Some d) => declares h d (i_name i)
  | MName _ None => True
  | MParent i j => alike (i_name j) (i_name i)
  end.
Record good (ns : list gostring) (h : heap) : Prop := {
  g_len : length ns = length (h_refs h);
  g_refs : forall c d, nth_error (h_refs h) c = Some (Some d) -> exists n, nth_error ns c = Some n /\ declares h d n;
  g_maps : forall m k d, In m (h_maps h) -> In (k, Some d) m -> declares h d k;
  g_units : forall o m, In o (h_units h) -> In m (unit_m o) -> ok ns h m;
  g_progs : forall o m, In o (h_progs h) -> In m (program_m o) -> ok ns h m;
  g_uses : forall o, In o (h_uses h) -> uses_well h o;
  g_ctxs : forall o us u, In o (h_ctxs h) -> cx_kind o = KProgram us -> In u us -> exists uo, nth_error (h_units h) u = Some uo }.
(** Units stay and keep their names. *)
Definition kept (h h' : heap) : Prop := forall u o, nth_error (h_units h) u = Some o ->
  exists o', nth_error (h_units h') u = Some o' /\ un_ident o' = un_ident o.
Definition later (ns : list gostring) (h : heap) (ns' : list gostring) (h' : heap) : Prop :=
  (exists l, ns' = ns ++ l) /\ (exists l, h_decls h' = h_decls h ++ l) /\ kept h h'.
Definition same (h h' : heap) : Prop := h_decls h' = h_decls h /\ h_units h' = h_units h.

Lemma same_refl h : same h h.
Proof. now split. Qed.
#[local] Hint Resolve same_refl : core.
Lemma kept_same h h' : h_units h' = h_units h -> kept h h'.
Proof. intros E u o N. rewrite E. eauto. Qed.
Lemma kept_trans h1 h2 h3 : kept h1 h2 -> kept h2 h3 -> kept h1 h3.
Proof. intros A B u o N. destruct (A u o N) as (o2 & N2 & E2). destruct (B u o2 N2) as (o3 & N3 & E3). exists o3. split; congruence. Qed.

Lemma later_refl ns h : later ns h ns h.
Proof. split; [exists []; now rewrite app_nil_r|]. split; [exists []; now rewrite app_nil_r|now apply kept_same]. Qed.
Lemma later_trans n1 h1 n2 h2 n3 h3 : later n1 h1 n2 h2 -> later n2 h2 n3 h3 -> later n1 h1 n3 h3.
Proof.
  intros [(l1 & E1) [(k1 & F1) K1]] [(l2 & E2) [(k2 & F2) K2]]. split; [|split].
  - exists (l1 ++ l2). now rewrite E2, E1, app_assoc.
  - exists (k1 ++ k2). now rewrite F2, F1, app_assoc.
  - eapply kept_trans; eassumption.
Qed.
Lemma later_same ns h h' : same h h' -> later ns h ns h'.
Proof. intros [E F]. split; [exists []; now rewrite app_nil_r|]. split; [exists []; now rewrite app_nil_r|now apply kept_same]. Qed.
Lemma deref_grows h h' l d o : h_decls h' = h_decls h ++ l -> deref h d = Some o -> deref h' d = Some o.
Proof.
  intros E. destruct d as [i|a]; [auto|]. cbn [deref]. rewrite E. intros F. rewrite nth_error_app1; [exact F|].
  apply nth_error_Some. congruence.
Qed.
Lemma declares_grows h h' l d n : h_decls h' = h_decls h ++ l -> declares h d n -> declares h' d n.
Proof. intros E (o & F & A). exists o. split; [eapply deref_grows; eassumption|exact A]. Qed.
Lemma nth_prefix {A} (l l' : list A) n x : nth_error l n = Some x -> nth_error (l ++ l') n = Some x.
Proof. intros F. rewrite nth_error_app1; [exact F|]. apply nth_error_Some. congruence. Qed.
Lemma ok_later ns h ns' h' m : later ns h ns' h' -> ok ns h m -> ok ns' h' m.
Proof.
  intros [(l & ->) [(k & F) _]]. destruct m as [t|i [d|]|i j]; cbn [ok]; auto.
  - apply nth_prefix.
  - eapply declares_grows, F.
Qed.
Lemma oks_later ns h ns' h' G : later ns h ns' h' -> Forall (ok ns h) G -> Forall (ok ns' h') G.
Proof. intros L. apply Forall_impl. intros m. now apply ok_later. Qed.

(** The heap gets new declarations, its maps stay sound, the rest stays. *)
Lemma good_maps ns h h' l : good ns h -> h_decls h' = h_decls h ++ l -> h_refs h' = h_refs h ->
  h_units h' = h_units h -> h_progs h' = h_progs h -> h_uses h' = h_uses h -> h_ctxs h' = h_ctxs h ->
  (forall m k d, In m (h_maps h') -> In (k, Some d) m -> declares h' d k) -> good ns h'.
Proof.
  intros [A B C D E F K] Ed Er Eu Ep Es Ec M.
  assert (L : later ns h ns h') by (split; [exists []; now rewrite app_nil_r|split; [eauto|now apply kept_same]]).
  constructor.
  - congruence.
  - rewrite Er. intros c d N. destruct (B c d N) as (n & N1 & N2). exists n. split; [exact N1|]. eapply declares_grows; eassumption.
  - exact M.
  - rewrite Eu. intros o m I J. eapply ok_later; [exact L|eauto].
  - rewrite Ep. intros o m I J. eapply ok_later; [exact L|eauto].
  - rewrite Es. intros o I u Ou. destruct (F o I u Ou) as (uo & N & X). exists uo. rewrite Eu. auto.
  - rewrite Ec, Eu. exact K.
Qed.
Lemma good_decls ns h h' l : good ns h -> h_decls h' = h_decls h ++ l -> h_refs h' = h_refs h ->
  h_units h' = h_units h -> h_progs h' = h_progs h -> h_uses h' = h_uses h -> h_ctxs h' = h_ctxs h -> h_maps h' = h_maps h -> good ns h'.
Proof.
  intros Gd Ed Er Eu Ep Es Ec Em. eapply good_maps; eauto. rewrite Em. intros m k d I J.
  eapply declares_grows; [exact Ed|]. eapply g_maps; eauto.
Qed.
Lemma good_same ns h h' : good ns h -> h_decls h' = h_decls h -> h_refs h' = h_refs h ->
  h_units h' = h_units h -> h_progs h' = h_progs h -> h_uses h' = h_uses h -> h_ctxs h' = h_ctxs h -> h_maps h' = h_maps h -> good ns h'.
Proof. intros Gd Ed. eapply good_decls; eauto. now rewrite app_nil_r. Qed.
Lemma good_ctxs ns h l : good ns h ->
  (forall o us u, In o l -> cx_kind o = KProgram us -> In u us -> exists uo, nth_error (h_units h) u = Some uo) ->
  good ns (with_ctxs l h).
Proof. intros [A B C D E F K] X. now constructor. Qed.
Lemma in_set_nth {A} (l : list A) : forall n x y, In y (set_nth n x l) -> In y l \/ y = x.
Proof.
  induction l as [|z l IH]; intros [|n] x y; cbn [set_nth]; auto.
  - intros [<-|I]; [auto|left; now right].
  - intros [<-|I]; [left; now left|]. destruct (IH _ _ _ I); [left; now right|auto].
Qed.
Lemma good_new_map ns h : good ns h -> good ns (fst (new_map h)).
Proof.
  intros Gd. eapply good_maps with (l := []); eauto; cbn; [now rewrite app_nil_r|].
  intros m k d I J. apply in_app_iff in I as [I|[<-|[]]]; [|destruct J].
  destruct (g_maps _ _ Gd m k d I J) as (o & E & A). exists o. split; [|exact A]. exact E.
Qed.
Lemma good_put_map ns h c m : good ns h -> good ns (ctx_put_map h c m).
Proof.
  intros Gd. unfold ctx_put_map. destruct (nth_error _ _) as [o|] eqn:E; [|exact Gd]. apply good_ctxs; [exact Gd|].
  intros o' us u J K. apply in_set_nth in J as [J| ->]; [now apply (g_ctxs _ _ Gd o')|]. apply (g_ctxs _ _ Gd o); [|exact K].
  now apply nth_error_In in E.
Qed.
Lemma put_map_same h c m : same h (ctx_put_map h c m).
Proof. unfold ctx_put_map, same. now destruct (nth_error _ _). Qed.

Lemma good_heap0 : good [] heap0.
Proof. constructor; cbn; try contradiction; auto. intros c d. destruct c; discriminate. Qed.

(** ** Looking up *)

Lemma mget_in k m v : mget k m = Some v -> In (k, v) m.
Proof.
  induction m as [|[k' v'] m IH]; cbn [mget]; [discriminate|]. destruct (runes_equal k k') eqn:E.
  - intros [= ->]. left. apply runes_equal_eq in E. now subst.
  - intros F. right. auto.
Qed.
Lemma impl_get_declares ns h a n d : good ns h -> impl_get h a n = LFound d -> declares h d n.
Proof.
  intros Gd. unfold impl_get. destruct (nth_error (h_maps h) a) as [m|] eqn:E; [|discriminate].
  destruct (mget (regularize n) m) as [[d'|]|] eqn:F; try discriminate. intros [= ->].
  eapply declares_alike; [eapply g_maps; [exact Gd|eapply nth_error_In, E|apply mget_in, F]|]. apply alike_sym, alike_lower.
Qed.
Lemma find_index_spec {A} (f : A -> bool) l : forall i j, find_index f i l = Some j -> exists x, nth_error l (j - i) = Some x /\ f x = true /\ i <= j.
Proof.
  induction l as [|x l IH]; intros i j; cbn [find_index]; [discriminate|]. destruct (f x) eqn:E.
  - intros [= <-]. exists x. rewrite Nat.sub_diag. auto.
  - intros F. destruct (IH _ _ F) as (y & N & G & L). exists y. replace (j - i) with (S (j - S i)) by lia. repeat split; auto. lia.
Qed.
Lemma embedded_declares h n d : embedded_get n = Some d -> declares h d n.
Proof.
  unfold embedded_get. destruct (find_index _ 0 embedded) as [j|] eqn:E; [|discriminate]. intros [= <-].
  apply find_index_spec in E as ([k x] & N & F & _). rewrite Nat.sub_0_r in N. cbn [snd] in F.
  exists (embedded_decl k x). cbn [deref]. rewrite N. split; [reflexivity|]. apply same_upper_alike.
  now apply runes_equal_eq in F.
Qed.
Lemma embedded_type_declares h k n d : embedded_type_decl k n = Some d -> declares h d n.
Proof.
  unfold embedded_type_decl. destruct (find_index _ 0 embedded) as [j|] eqn:E; [|discriminate]. intros [= <-].
  apply find_index_spec in E as ([k' x] & N & F & _). rewrite Nat.sub_0_r in N. cbn [snd fst] in F.
  apply andb_prop in F as [_ F].
  exists (embedded_decl k' x). cbn [deref]. rewrite N. split; [reflexivity|]. apply same_upper_alike.
  now apply runes_equal_eq in F.
Qed.
Lemma dget_declares ns h n d : good ns h -> forall m, dget h m n = LFound d -> declares h d n.
Proof.
  intros Gd. fix IH 1. intros [a|p a|ms| |]; cbn [dget].
  - now apply (impl_get_declares ns).
  - destruct (impl_get h a n) as [|d'|] eqn:E; intros F; [eapply IH, F| |discriminate].
    injection F as ->. eapply impl_get_declares; eauto.
  - induction ms as [|m ms IHm]; [discriminate|]. destruct (dget h m n) as [|d'|] eqn:E; intros F; [now apply IHm| |discriminate].
    injection F as ->. eapply IH, E.
  - destruct (embedded_get n) as [d'|] eqn:E; [|discriminate]. intros [= ->]. now apply embedded_declares.
  - discriminate.
Qed.
Lemma ctx_get_fuel_declares ns h n d : good ns h -> forall f c, ctx_get_fuel f h c n = LFound d -> declares h d n.
Proof.
  intros Gd. induction f as [|f IH]; intros c; cbn [ctx_get_fuel]; [discriminate|].
  destruct (nth_error (h_ctxs h) c) as [o|]; [|discriminate]. destruct (cx_kind o) as [us|p|p].
  - eapply dget_declares, Gd.
  - eapply dget_declares, Gd.
  - destruct (dget h (cx_map o) n) as [|d'|] eqn:E; intros F; [eapply IH, F| |discriminate].
    injection F as ->. eapply dget_declares; eauto.
Qed.
Lemma ctx_get_declares ns h c n d : good ns h -> ctx_get h c n = LFound d -> declares h d n.
Proof. intros Gd. apply (ctx_get_fuel_declares ns); exact Gd. Qed.

(** ** Setting *)

Lemma mput_in k v m k' v' : In (k', v') (mput k v m) -> In (k', v') m \/ (k' = k /\ v' = v).
Proof.
  induction m as [|[k1 v1] m IH]; cbn [mput].
  - intros [[= -> ->]|[]]. auto.
  - destruct (runes_equal k k1) eqn:E.
    + apply runes_equal_eq in E. subst k1. intros [[= -> ->]|I]; [auto|]. left. now right.
    + intros [[= -> ->]|I]; [left; now left|]. destruct (IH I) as [J|J]; [left; now right|auto].
Qed.
Lemma good_put ns h a m n d : good ns h -> nth_error (h_maps h) a = Some m -> declares h d n ->
  good ns (with_maps (set_nth a (mput (regularize n) (Some d) m) (h_maps h)) h).
Proof.
  intros Gd E D. eapply good_maps with (l := []); eauto; cbn; [now rewrite app_nil_r|].
  intros m' k d' I J. apply in_set_nth in I as [I| ->].
  - destruct (g_maps _ _ Gd _ _ _ I J) as (o & F & A). exists o. auto.
  - apply mput_in in J as [J|[-> [= ->]]].
    + destruct (g_maps _ _ Gd _ _ _ (nth_error_In _ _ E) J) as (o & F & A). exists o. auto.
    + destruct (declares_alike _ _ _ _ D (alike_lower n)) as (o & F & A). exists o. auto.
Qed.
Lemma impl_set_good ns a : forall ds h, good ns h -> (forall i d, In (i, d) ds -> declares h d (i_name i)) ->
  match impl_set h a ds with SOk h' | SErr h' _ => good ns h' /\ same h h' | SPanic => True end.
Proof.
  induction ds as [|[i d] ds IH]; intros h Gd D; cbn [impl_set]; [auto|].
  destruct (nth_error (h_maps h) a) as [m|] eqn:E; [|exact I].
  destruct (mget (regularize (i_name i)) m) as [[old|]|] eqn:F; [|exact I|].
  - destruct (i_loc i); [|exact I]. destruct (option_map _ _) as [[?|]|]; auto.
  - specialize (IH (with_maps (set_nth a (mput (regularize (i_name i)) (Some d) m) (h_maps h)) h)).
    apply IH; [apply good_put; auto; apply D; now left|]. intros i' d' J.
    destruct (D i' d') as (o & X & Y); [now right|]. exists o. auto.
Qed.
Lemma dset_good ns m ds h : good ns h -> (forall i d, In (i, d) ds -> declares h d (i_name i)) ->
  match dset h m ds with SOk h' | SErr h' _ => good ns h' /\ same h h' | SPanic => True end.
Proof.
  intros Gd D. revert m. fix IH 1. intros [a|p a|[|m ms]| |]; cbn [dset].
  - now apply impl_set_good.
  - now apply impl_set_good.
  - exact I.
  - apply IH.
  - auto.
  - exact I.
Qed.
Lemma map_set_good ns h m ds : good ns h ->
  match map_set h m ds with SOk h' | SErr h' _ => good ns h' /\ later ns h ns h' | SPanic => True end.
Proof.
  intros Gd. unfold map_set, alloc_decls. cbv beta iota zeta.
  set (h1 := with_decls (h_decls h ++ ds) h).
  assert (G1 : good ns h1) by (eapply good_decls; eauto; reflexivity).
  pose proof (dset_good ns m (combine (map d_ident ds) (map Ptr (seq (length (h_decls h)) (length ds)))) h1 G1) as D.
  assert (D' : forall i d, In (i, d) (combine (map d_ident ds) (map Ptr (seq (length (h_decls h)) (length ds)))) -> declares h1 d (i_name i)).
  { intros i d I. apply In_nth_error in I as (n & E).
    assert (exists o, nth_error ds n = Some o /\ i = d_ident o /\ d = Ptr (length (h_decls h) + n)) as (o & E1 & -> & ->).
    { clear - E. revert E. generalize (length (h_decls h)) as b. revert n. induction ds as [|o ds IH]; intros n b; cbn.
      - destruct n; discriminate.
      - destruct n as [|n]; cbn [nth_error].
        + intros [= <- <-]. exists o. rewrite Nat.add_0_r. auto.
        + intros E. apply IH in E as (o' & ? & ? & ?). exists o'. rewrite Nat.add_succ_r. auto. }
    exists o. split; [|apply alike_refl]. cbn [deref h1 with_decls h_decls]. rewrite nth_error_app2 by lia.
    now replace (length (h_decls h) + n - length (h_decls h)) with n by lia. }
  specialize (D D').
  assert (L : forall h', same h1 h' -> later ns h ns h').
  { intros h' [E E']. split; [exists []; now rewrite app_nil_r|]. split; [exists ds; now rewrite E|now apply kept_same]. }
  destruct (dset h1 m _); intuition.
Qed.
Lemma ctx_set_good ns h c ds : good ns h ->
  match ctx_set h c ds with SOk h' | SErr h' _ => good ns h' /\ later ns h ns h' | SPanic => True end.
Proof. intros Gd. unfold ctx_set. destruct (nth_error _ _); [now apply map_set_good|exact I]. Qed.
Lemma doverwrite_good ns m h n d h' : good ns h -> declares h d n -> doverwrite h m n (Some d) = Some h' ->
  good ns h' /\ same h h'.
Proof.
  intros Gd D. revert m.
  assert (O : forall a, impl_overwrite h a n (Some d) = Some h' -> good ns h' /\ same h h').
  { intros a. unfold impl_overwrite. destruct (nth_error _ _) as [m|] eqn:E; [|discriminate]. intros [= <-].
    split; [now apply good_put|now split]. }
  fix IH 1. intros [a|p a|[|m ms]| |]; cbn [doverwrite]; try discriminate.
  - apply O.
  - apply O.
  - apply IH.
  - clear IH. intros [= <-]. auto.
Qed.
Lemma ctx_overwrite_good ns c h n d h' : good ns h -> declares h d n -> ctx_overwrite h c n (Some d) = Some h' ->
  good ns h' /\ same h h'.
Proof. intros Gd D. unfold ctx_overwrite. destruct (nth_error _ _); [|discriminate]. now apply doverwrite_good. Qed.

Lemma nth_set_cases {A} (l : list A) : forall n x k y, nth_error (set_nth n x l) k = Some y -> nth_error l k = Some y \/ (k = n /\ y = x).
Proof.
  induction l as [|z l IH]; intros [|n] x [|k] y; cbn [set_nth nth_error]; auto.
  - intros [= ->]. auto.
  - intros E. destruct (IH _ _ _ _ E) as [F|[-> ->]]; auto.
Qed.
Lemma good_ref ns h c n d : good ns h -> nth_error ns c = Some n -> declares h d n ->
  good ns (with_refs (set_nth c (Some d) (h_refs h)) h).
Proof.
  intros Gd N D. pose proof Gd as [A B C E F G0 K0]. constructor; cbn; auto.
  - now rewrite set_nth_length.
  - intros c' d' X. apply nth_set_cases in X as [X|[-> [= ->]]].
    + destruct (B c' d' X) as (n' & Y & o & Z). exists n'. split; [exact Y|]. exists o. auto.
    + exists n. split; [exact N|]. destruct D as (o & Z). exists o. auto.
Qed.
Lemma run_post_good ns c : forall l h h', good ns h -> (forall k n, In (k, n) l -> nth_error ns k = Some n) ->
  run_post c l h = Some h' -> good ns h' /\ same h h'.
Proof.
  induction l as [|[k n] l IH]; intros h h' Gd P; cbn [run_post].
  - intros [= <-]. auto.
  - assert (P' : forall k n, In (k, n) l -> nth_error ns k = Some n) by (intros; apply P; now right).
    destruct (ctx_get h c n) as [|d|] eqn:E; [now apply IH| |discriminate].
    intros R. apply IH in R; [exact R| |exact P']. eapply good_ref; [exact Gd|apply P; now left|]. eapply ctx_get_declares; eauto.
Qed.

(** ** Programs *)

Definition Inv (ns : list gostring) (s : pst) : Prop :=
  good ns (s_heap s) /\ forall c n, In (c, n) (s_post s) -> nth_error ns c = Some n.
(** [p], where the mentions [G] are right, keeps the invariant, and then those of its result
    are right. *)
Definition tied {A} (G : list mention) (p : prog A) (f : A -> list mention) : Prop :=
  forall ns s, Inv ns s -> Forall (ok ns (s_heap s)) G ->
  match run p s with
  | OOk a s' => exists ns', later ns (s_heap s) ns' (s_heap s') /\ Inv ns' s' /\ Forall (ok ns' (s_heap s')) (f a)
  | OErr _ s' => exists ns', later ns (s_heap s) ns' (s_heap s') /\ Inv ns' s'
  | _ => True
  end.
Definition none {A} (_ : A) : list mention := [].

Lemma tied_weak {A} G G' (p : prog A) f : tied G p f -> incl G G' -> tied G' p f.
Proof. intros T I ns s V O. apply T; [exact V|]. eapply incl_Forall; eassumption. Qed.
Lemma tied_conseq {A} G (p : prog A) f f' : tied G p f -> (forall a, incl (f' a) (f a ++ G)) -> tied G p f'.
Proof.
  intros T I ns s V O. specialize (T ns s V O). destruct (run p s) as [a s'| | | |]; auto.
  destruct T as (ns' & L & V' & O'). exists ns'. split; [exact L|]. split; [exact V'|]. eapply incl_Forall; [apply I|].
  apply Forall_app. split; [exact O'|]. eapply oks_later; eassumption.
Qed.
Lemma tied_ret {A} G (a : A) f : incl (f a) G -> tied G (Ret a) f.
Proof. intros I ns s V O. cbn [run]. exists ns. split; [apply later_refl|]. split; [exact V|]. eapply incl_Forall; eassumption. Qed.
Lemma tied_bind_fact {A B} G (p : prog A) (k : A -> prog B) f g (Q : A -> Prop) :
  tied G p f -> (forall a s s', run p s = OOk a s' -> Q a) -> (forall a, Q a -> tied (f a ++ G) (k a) g) -> tied G (Bind p k) g.
Proof.
  intros P F K ns s V O. specialize (P ns s V O). cbn [run]. destruct (run p s) as [a s1|e s1| | |] eqn:E; auto.
  destruct P as (n1 & L1 & V1 & O1). specialize (K a (F _ _ _ E) n1 s1 V1).
  assert (X : Forall (ok n1 (s_heap s1)) (f a ++ G)) by (apply Forall_app; split; [exact O1|eapply oks_later; eassumption]).
  specialize (K X). destruct (run (k a) s1) as [b s2|e s2| | |]; auto.
  - destruct K as (n2 & L2 & V2 & O2). exists n2. split; [eapply later_trans; eassumption|auto].
  - destruct K as (n2 & L2 & V2). exists n2. split; [eapply later_trans; eassumption|auto].
Qed.
Lemma tied_bind {A B} G (p : prog A) (k : A -> prog B) f g :
  tied G p f -> (forall a, tied (f a ++ G) (k a) g) -> tied G (Bind p k) g.
Proof. intros P K. apply (tied_bind_fact G p k f g (fun _ => True)); auto. Qed.
Lemma tied_bind_ret {A B} G (a : A) (k : A -> prog B) g : tied G (k a) g -> tied G (Bind (Ret a) k) g.
Proof. intros T ns s V O. exact (T ns s V O). Qed.
Lemma tied_assoc {A B C} G (p : prog A) (k : A -> prog B) (k' : B -> prog C) g :
  tied G (Bind p (fun a => Bind (k a) k')) g -> tied G (Bind (Bind p k) k') g.
Proof. intros T ns s V O. specialize (T ns s V O). cbn [run] in *. destruct (run p s); exact T. Qed.
Lemma tied_failat {A} G t f : tied (A := A) G (FailAt t) f.
Proof.
  intros ns s V O. cbn [run]. destruct (ctx_path _ _); [|exact I]. exists ns. split; [apply later_refl|exact V].
Qed.
Lemma tied_bind_failat {A B} G t (k : A -> prog B) g : tied G (Bind (FailAt t) k) g.
Proof.
  intros ns s V O. cbn [run]. destruct (ctx_path _ _); [|exact I]. exists ns. split; [apply later_refl|exact V].
Qed.
Lemma tied_bind_fail {A B} G e (k : A -> prog B) g : tied G (Bind (Fail e) k) g.
Proof. intros ns s V O. cbn [run]. exists ns. split; [apply later_refl|exact V]. Qed.
Lemma tied_bind_crash {A B} G (k : A -> prog B) g : tied G (Bind Crash k) g.
Proof. intros ns s V O. exact I. Qed.
Lemma tied_fail {A} G e f : tied (A := A) G (Fail e) f.
Proof. intros ns s V O. cbn [run]. exists ns. split; [apply later_refl|exact V]. Qed.
Lemma tied_crash {A} G f : tied (A := A) G Crash f.
Proof. intros ns s V O. exact I. Qed.
Lemma tied_nofuel {A} G f : tied (A := A) G NoFuel f.
Proof. intros ns s V O. exact I. Qed.
Lemma tied_next G : tied G Next none.
Proof.
  intros ns s V O. cbn [run]. unfold next_token. destruct (get_next (s_tok s)); [| |exact I];
    exists ns; (split; [apply later_refl|]); (split; [exact V|constructor]).
Qed.
Lemma tied_Cur G : tied G Cur none.
Proof. intros ns s V O. cbn [run]. exists ns. split; [apply later_refl|]. split; [exact V|constructor]. Qed.
Lemma tied_heap {A} G (f : nat -> heap -> hres A) g :
  (forall ns c h, good ns h -> Forall (ok ns h) G ->
   match f c h with
   | HOk a h' => exists ns', later ns h ns' h' /\ good ns' h' /\ Forall (ok ns' h') (g a)
   | HErr _ h' => exists ns', later ns h ns' h' /\ good ns' h'
   | _ => True
   end) -> tied G (OnHeap f) g.
Proof.
  intros H ns s [V1 V2] O. cbn [run]. specialize (H ns (s_ctx s) (s_heap s) V1 O).
  destruct (f (s_ctx s) (s_heap s)) as [a h|e h| |]; auto.
  - destruct H as (ns' & L & Gd & X). exists ns'. split; [exact L|]. split; [|exact X]. split; [exact Gd|].
    intros c n J. destruct L as [(l & ->) _]. apply nth_prefix. now apply V2.
  - destruct H as (ns' & L & Gd). exists ns'. split; [exact L|]. split; [exact Gd|].
    intros c n J. destruct L as [(l & ->) _]. apply nth_prefix. now apply V2.
Qed.
Lemma tied_pure {A} G (f : nat -> heap -> hres A) :
  (forall c h, match f c h with HOk _ h' | HErr _ h' => h' = h | _ => True end) -> tied G (OnHeap f) none.
Proof.
  intros H. apply tied_heap. intros ns c h Gd O. specialize (H c h). destruct (f c h); auto; subst.
  - exists ns. split; [apply later_refl|]. split; [exact Gd|constructor].
  - exists ns. split; [apply later_refl|exact Gd].
Qed.
(** A mention that is right in every state *)
Lemma tied_fact {A} G (p : prog A) f m : (forall ns h, ok ns h m) -> tied (m :: G) p f -> tied G p f.
Proof. intros H T ns s V O. apply T; [exact V|]. constructor; auto. Qed.
Lemma tied_alike {A} G (p : prog A) f i j d : In (MName i d) G -> alike (i_name i) (i_name j) -> tied (MName j d :: G) p f -> tied G p f.
Proof.
  intros H A0 T ns s V O. apply T; [exact V|]. constructor; [|exact O]. pose proof (proj1 (Forall_forall _ _) O _ H) as X.
  cbn [ok] in *. destruct d; [|exact I]. eapply declares_alike; eassumption.
Qed.
Lemma tied_traced {A} G (p : prog A) f : tied G p f -> tied G (Traced p) f.
Proof.
  intros P ns s V O. cbn [run]. destruct (s_cur s); [|exact I]. specialize (P ns s V O).
  destruct (run p s) as [a s1|e s1| | |]; auto; destruct (s_cur s1); auto.
Qed.
Lemma tied_attempt {B} G (p : prog (option B)) f : tied G p (opt f) -> tied G (Attempt p) (opt f).
Proof.
  intros P ns s V O. cbn [run]. destruct (s_cur s) as [t|]; [|exact I].
  destruct (ctx_clone (s_heap s) (s_ctx s)) as [[h c]|] eqn:CC; [|exact I].
  assert (exists l, h = with_ctxs l (s_heap s)) as (l & ->).
  { unfold ctx_clone in CC. destruct (nth_error _ _); [|discriminate]. injection CC as <- <-. eauto. }
  assert (V' : Inv ns (with_heap (with_ctxs l (s_heap s)) s)).
  { destruct V as [V1 V2]. split; [|exact V2]. apply good_ctxs; [exact V1|]. intros o us u J K.
    unfold ctx_clone in CC. destruct (nth_error _ _) as [o0|] eqn:N; [|discriminate]. injection CC as <- <-.
    apply in_app_iff in J as [J|[<-|[]]]; [now apply (g_ctxs _ _ V1 o)|].
    destruct (cx_kind o0) as [us0|p0|p0] eqn:K0; cbn [cx_kind] in K.
    - apply (g_ctxs _ _ V1 o0); [now apply nth_error_In in N|congruence].
    - congruence.
    - injection K as <-. intros []. }
  assert (L : later ns (s_heap s) ns (s_heap (with_heap (with_ctxs l (s_heap s)) s))) by (now apply later_same).
  specialize (P ns _ V' (oks_later _ _ _ _ _ L O)).
  destruct (run p (with_heap (with_ctxs l (s_heap s)) s)) as [[b|] s2|e s2| | |]; auto.
Qed.
Lemma tied_scoped {A} G (p : prog A) f : tied G p f -> tied G (Scoped p) f.
Proof.
  intros P ns s V O. cbn [run]. destruct (ctx_stack (s_heap s) (s_ctx s)) as [[h b]|] eqn:CS; [|exact I].
  assert (K : good ns h /\ later ns (s_heap s) ns h).
  { unfold ctx_stack in CS. destruct (nth_error _ _) as [o|]; [|discriminate]. injection CS as <- <-. split.
    - apply good_put_map. apply (good_new_map ns (s_heap s)). apply V.
    - apply later_same. destruct (put_map_same (with_maps (h_maps (s_heap s) ++ [[]]) (s_heap s)) (s_ctx s) (DChained (cx_map o) (length (h_maps (s_heap s))))) as [X Y]. split; [exact X|exact Y]. }
  destruct K as [Gd L].
  assert (V' : Inv ns (with_heap h s)) by (split; [exact Gd|apply V]).
  specialize (P ns _ V' (oks_later _ _ _ _ _ L O)).
  destruct (run p (with_heap h s)) as [a s2|e s2| | |]; auto.
  - destruct P as (n2 & L2 & [V2 W2] & O2). exists n2.
    assert (L3 : later n2 (s_heap s2) n2 (ctx_restore (s_heap s2) (s_ctx s) b)) by (apply later_same, put_map_same).
    split; [eapply later_trans; [exact L|eapply later_trans; [exact L2|exact L3]]|].
    split; [split; [now apply good_put_map|exact W2]|]. eapply oks_later; [exact L3|exact O2].
  - destruct P as (n2 & L2 & [V2 W2]). exists n2.
    assert (L3 : later n2 (s_heap s2) n2 (ctx_restore (s_heap s2) (s_ctx s) b)) by (apply later_same, put_map_same).
    split; [eapply later_trans; [exact L|eapply later_trans; [exact L2|exact L3]]|].
    split; [now apply good_put_map|exact W2].
Qed.
Lemma tied_postscope {A} G (p : prog A) f : tied G p f -> tied G (PostScope p) f.
Proof.
  intros P ns s V O. cbn [run].
  assert (V' : Inv ns (with_post [] s)) by (split; [apply V|intros ? ? []]).
  specialize (P ns _ V' O).
  destruct (run p (with_post [] s)) as [a s2|e s2| | |]; auto.
  - destruct P as (n2 & L2 & [V2 W2] & O2). exists n2. split; [exact L2|]. split; [|exact O2]. split; [exact V2|].
    intros c n J. destruct L2 as [(l & ->) _]. apply nth_prefix. destruct V as [_ V]. now apply V.
  - destruct P as (n2 & L2 & [V2 W2]). exists n2. split; [exact L2|]. split; [exact V2|].
    intros c n J. destruct L2 as [(l & ->) _]. apply nth_prefix. destruct V as [_ V]. now apply V.
Qed.
Lemma tied_addpost G r : In (MType r) G -> tied G (AddPost (ti_ref r) (i_name (ti_ident r))) none.
Proof.
  intros J ns s [V1 V2] O. cbn [run]. exists ns. split; [apply later_refl|]. split; [|constructor]. split; [exact V1|].
  intros c n K. cbn [s_post with_post] in K. apply in_app_iff in K as [K|[[= <- <-]|[]]]; [now apply V2|].
  exact (proj1 (Forall_forall _ _) O _ J).
Qed.
Lemma tied_runpost G : tied G RunPost none.
Proof.
  intros ns s [V1 V2] O. cbn [run]. destruct (run_post _ _ _) as [h|] eqn:E; [|exact I].
  destruct (run_post_good _ _ _ _ _ V1 V2 E) as [V3 D]. exists ns. split; [now apply later_same|]. split; [|constructor].
  split; [exact V3|exact V2].
Qed.

(** ** The operations of Prog.v *)

Lemma tied_loop {S A} G n (body : S -> prog (S + A)) f g :
  (forall x, tied (f x ++ G) (body x) (fun r => match r with inl y => f y | inr a => g a end)) ->
  forall x, tied (f x ++ G) (loop n body x) g.
Proof.
  intros B. induction n as [|n IH]; intros x; cbn [loop]; [apply tied_nofuel|].
  eapply tied_bind; [apply B|]. intros [y|a].
  - eapply tied_weak; [apply IH|]. intros m. rewrite !in_app_iff. tauto.
  - apply tied_ret. intros m. rewrite !in_app_iff. tauto.
Qed.
Lemma tied_validate G t pred : tied G (validate t pred) none.
Proof. unfold validate. destruct t as [t|]; [|apply tied_fail]. destruct (pred t); [|apply tied_failat]. apply tied_ret. intros ? []. Qed.
Lemma tied_until {S} G n te sep (fn : S -> prog (option S)) f :
  (forall x, tied (f x ++ G) (fn x) (opt f)) -> forall x, tied (f x ++ G) (until n te sep fn x) f.
Proof.
  intros B. unfold until. apply (tied_loop G n (until_step te sep fn) f f). intros x. unfold until_step.
  eapply tied_bind; [apply B|]. intros [y|]; cbn [opt].
  - eapply tied_bind; [apply tied_Cur|]. intros [t|]; [|apply tied_fail]. cbn [none app].
    destruct (te t); [apply tied_ret; intros m; rewrite !in_app_iff; tauto|].
    destruct sep as [sep|]; [|apply tied_ret; intros m; rewrite !in_app_iff; tauto].
    eapply tied_bind; [apply tied_validate|]. intros t1. eapply tied_bind; [apply tied_next|]. intros t2. cbn [none app].
    apply tied_ret; intros m; rewrite !in_app_iff; tauto.
  - apply tied_ret. intros m. rewrite !in_app_iff. tauto.
Qed.
Lemma tied_until_list {A} G n te sep (p : prog A) f :
  (forall G', tied (G' ++ G) p f) -> tied G (until_list n te sep p) (flat_map f).
Proof.
  intros P. unfold until_list. change G with (flat_map f [] ++ G). apply tied_until. intros x. unfold append_with.
  eapply tied_bind; [apply P|]. intros a. apply tied_ret. cbn [opt]. rewrite flat_map_app. cbn [flat_map].
  intros m. rewrite !in_app_iff. cbn [In]. tauto.
Qed.

Lemma tied_cur G : tied G cur none.
Proof. unfold cur. eapply tied_bind; [apply tied_Cur|]. intros [t|]; [apply tied_ret; intros ? []|apply tied_crash]. Qed.
Lemma tied_is G pred : tied G (is pred) none.
Proof. unfold is. eapply tied_bind; [apply tied_cur|]. intros t. apply tied_ret; intros ? []. Qed.
Lemma tied_nexttok G : tied G next none.
Proof. unfold next. eapply tied_bind; [apply tied_next|]. intros [t|]; [apply tied_ret; intros ? []|apply tied_crash]. Qed.
Lemma tied_expect G pred : tied G (expect pred) none.
Proof. unfold expect. eapply tied_bind; [apply tied_Cur|]. intros t. apply tied_validate. Qed.
Lemma tied_expect_next G pred : tied G (expect_next pred) none.
Proof. unfold expect_next. eapply tied_bind; [apply tied_next|]. intros t. apply tied_validate. Qed.
Lemma tied_expect_or_fail G pred : tied G (expect_or_fail pred) none.
Proof.
  unfold expect_or_fail. eapply tied_bind; [apply tied_cur|]. intros t. destruct (pred t); [apply tied_ret; intros ? []|apply tied_failat].
Qed.

Lemma tied_get G n i : alike n (i_name i) -> tied G (get n) (fun d => [MName i d]).
Proof.
  intros A. unfold get. apply tied_heap. intros ns c h Gd O. destruct (ctx_get h c n) as [|d|] eqn:E; [| |exact I];
    exists ns; (split; [apply later_refl|]); (split; [exact Gd|]); repeat constructor.
  cbn [ok]. eapply declares_alike; [eapply ctx_get_declares; eauto|exact A].
Qed.
Lemma tied_get_raw G t : tied G (get (raw t)) (fun d => [MName (new_ident t) d]).
Proof. apply tied_get. apply alike_refl. Qed.
Lemma tied_get_value G t : tied G (get (value t)) (fun d => [MName (new_ident t) d]).
Proof. apply tied_get. apply value_alike. Qed.
Lemma tied_node G d : tied G (node_of d) none.
Proof. unfold node_of. apply tied_pure. intros c h. destruct (deref h d); auto. Qed.
Definition node_m {A} (i : ident) : option (dref * A) -> list mention := opt (fun x => [MName i (Some (fst x))]).
Lemma tied_get_node G n i : alike n (i_name i) -> tied G (get_node n) (node_m i).
Proof.
  intros A. unfold get_node. eapply tied_bind; [apply tied_get, A|]. intros [d|]; [|apply tied_ret; intros ? []].
  eapply tied_bind; [apply tied_node|]. intros nd. apply tied_ret. cbn. intros m [<-|[]]. now left.
Qed.
Lemma tied_get_node_value G t : tied G (get_node (value t)) (node_m (new_ident t)).
Proof. apply tied_get_node. apply value_alike. Qed.
Lemma tied_get_node_raw G t : tied G (get_node (raw t)) (node_m (new_ident t)).
Proof. apply tied_get_node. apply alike_refl. Qed.
Lemma tied_get_node_name G i : tied G (get_node (i_name i)) none.
Proof. eapply tied_conseq; [apply (tied_get_node _ _ i), alike_refl|]. intros a ? []. Qed.
Lemma tied_set G ds : tied G (set ds) none.
Proof.
  unfold set. apply tied_heap. intros ns c h Gd O. pose proof (ctx_set_good ns h c ds Gd) as X.
  destruct (ctx_set h c ds) as [h'|h' i|]; [| |exact I]; destruct X as [X L]; exists ns; auto. split; [exact L|]. split; [exact X|constructor].
Qed.
Lemma good_new_ref ns h n od : good ns h -> (forall d, od = Some d -> declares h d n) ->
  good (ns ++ [n]) (with_refs (h_refs h ++ [od]) h).
Proof.
  intros Gd D. pose proof Gd as [A B C E F G0 K0].
  assert (L : later ns h (ns ++ [n]) (with_refs (h_refs h ++ [od]) h)) by (split; [eauto|split; [exists []; cbn; now rewrite app_nil_r|now apply kept_same]]).
  constructor; cbn [h_refs h_maps h_units h_progs h_uses with_refs].
  - rewrite !app_length. cbn. lia.
  - intros c d X. destruct (Nat.lt_ge_cases c (length (h_refs h))) as [Lt|Ge].
    + rewrite nth_error_app1 in X by exact Lt. destruct (B c d X) as (n' & Y & o & Z). exists n'. split; [now apply nth_prefix|]. exists o. auto.
    + rewrite nth_error_app2 in X by exact Ge. destruct (c - length (h_refs h)) as [|k] eqn:K; cbn in X; [|destruct k; discriminate].
      injection X as ->. exists n. rewrite nth_error_app2 by lia. replace (c - length ns) with 0 by lia. split; [reflexivity|].
      destruct (D d eq_refl) as (o & Z). exists o. auto.
  - exact C.
  - intros o m I J. eapply ok_later; [exact L|eauto].
  - intros o m I J. eapply ok_later; [exact L|eauto].
  - exact G0.
  - exact K0.
Qed.
Lemma tied_new_type_id G u i od : od = None \/ In (MName i od) G -> tied G (new_type_id u i od) (fun r => [MType r]).
Proof.
  intros H. unfold new_type_id. apply tied_heap. intros ns c h Gd O. exists (ns ++ [i_name i]).
  assert (D : forall d, od = Some d -> declares h d (i_name i)).
  { intros d ->. destruct H as [H|H]; [discriminate|]. exact (proj1 (Forall_forall _ _) O _ H). }
  split; [split; [eauto|split; [exists []; cbn; now rewrite app_nil_r|now apply kept_same]]|]. split; [now apply good_new_ref|].
  repeat constructor. cbn. rewrite <- (g_len _ _ Gd), nth_error_app2 by lia. now rewrite Nat.sub_diag.
Qed.
Lemma tied_bind_type_id {B} G u i od (k : typeid -> prog B) g : od = None \/ In (MName i od) G ->
  (forall r, ti_ident r = i -> tied (MType r :: G) (k r) g) -> tied G (Bind (new_type_id u i od) k) g.
Proof.
  intros H K. apply (tied_bind_fact G _ k (fun r => [MType r]) g (fun r => ti_ident r = i)).
  - now apply tied_new_type_id.
  - intros r s s' E. cbn in E. now injection E as <- _.
  - exact K.
Qed.
Lemma tied_loop0 {S A} G n (body : S -> prog (S + A)) f g x :
  (forall x, tied (f x ++ G) (body x) (fun r => match r with inl y => f y | inr a => g a end)) ->
  f x = [] -> tied G (loop n body x) g.
Proof. intros B E. pose proof (tied_loop G n body f g B x) as T. now rewrite E in T. Qed.
Lemma tied_until0 {S} G n te sep (fn : S -> prog (option S)) f x :
  (forall x, tied (f x ++ G) (fn x) (opt f)) -> f x = [] -> tied G (until n te sep fn x) f.
Proof. intros B E. pose proof (tied_until G n te sep fn f B x) as T. now rewrite E in T. Qed.
Lemma tied_list {A} G n te sep (p : prog A) f :
  (forall G', tied G' p f) -> tied G (until_list n te sep p) (flat_map f).
Proof. intros P. apply tied_until_list. intros. apply P. Qed.

End WithUnicode.
