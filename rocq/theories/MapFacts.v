(** Facts about declaration maps and contexts. *)
From Coq Require Import List NArith Bool Arith Lia.
From Verif Require Import ListUtil Runes UnicodeFacts LexShape Token Ast Ext ExtMain Heap MapSpec.
Import ListNotations.

Lemma nth_set_nth_eq {A} a (v : A) l : a < length l -> nth_error (set_nth a v l) a = Some v.
Proof. revert l. induction a; intros [|x l] H; cbn in *; try lia; auto. apply IHa. lia. Qed.
Lemma nth_set_nth_neq {A} a b (v : A) l : a <> b -> nth_error (set_nth a v l) b = nth_error l b.
Proof. revert b l. induction a; intros [|b] [|x l] H; cbn; auto; try congruence. Qed.
Lemma set_nth_same {A} a (v : A) l : nth_error l a = Some v -> set_nth a v l = l.
Proof. revert l. induction a; intros [|x l] H; cbn in *; try congruence. f_equal. auto. Qed.
Lemma nth_lt {A} (l : list A) a x : nth_error l a = Some x -> a < length l.
Proof. intros H. apply nth_error_Some. congruence. Qed.

Lemma runes_equal_refl s : runes_equal s s = true.
Proof. now apply runes_equal_eq. Qed.

Lemma mget_put_eq k v m : mget k (mput k v m) = Some v.
Proof.
  induction m as [|[k' v'] m IH]; cbn; [now rewrite runes_equal_refl|].
  destruct (runes_equal k k') eqn:E; cbn; rewrite E; auto.
Qed.
Lemma mget_put_neq k k' v m : k <> k' -> mget k (mput k' v m) = mget k m.
Proof.
  intros N. induction m as [|[k2 v2] m IH]; cbn.
  - destruct (runes_eqb_spec k k'); congruence.
  - destruct (runes_eqb_spec k' k2) as [->|E]; cbn.
    + destruct (runes_eqb_spec k k2); congruence.
    + destruct (runes_eqb_spec k k2); auto.
Qed.

(** [h'] differs from [h] at most in the map object [a]. *)
Record only (a : nat) (h h' : heap) : Prop := mkOnly {
  on_len : length (h_maps h') = length (h_maps h);
  on_maps : forall b, b <> a -> nth_error (h_maps h') b = nth_error (h_maps h) b;
  on_decls : h_decls h' = h_decls h; on_refs : h_refs h' = h_refs h; on_fwds : h_fwds h' = h_fwds h;
  on_uses : h_uses h' = h_uses h; on_units : h_units h' = h_units h; on_progs : h_progs h' = h_progs h;
  on_ctxs : h_ctxs h' = h_ctxs h }.
Lemma only_refl a h : only a h h.
Proof. now constructor. Qed.
Lemma only_trans a h1 h2 h3 : only a h1 h2 -> only a h2 h3 -> only a h1 h3.
Proof. intros [] []. constructor; try congruence. intros b N. rewrite on_maps1; auto. Qed.
Lemma only_put a h v : only a h (with_maps (set_nth a v (h_maps h)) h).
Proof.
  constructor; auto; cbn; [apply set_nth_length|].
  intros b N. now apply nth_set_nth_neq; congruence.
Qed.

Lemma dmap_ind' (P : dmap -> Prop)
  (HI : forall a, P (DImpl a)) (HC : forall p a, P p -> P (DChained p a))
  (HM : forall ms, Forall P ms -> P (DComposite ms)) (HE : P DEmbedded) (HN : P DNil) : forall m, P m.
Proof.
  fix IH 1. intros [a|p a|ms| |].
  - apply HI.
  - apply HC, IH.
  - apply HM. induction ms as [|m ms IHms]; constructor; [apply IH|apply IHms].
  - apply HE.
  - apply HN.
Qed.

Section WithUnicode.
Context {U : Unicode}.

Lemma same_nameb_spec a b : Bool.reflect (same_name a b) (same_nameb a b).
Proof. apply runes_eqb_spec. Qed.

Lemma dget_composite h ms name :
  dget h (DComposite ms) name = first_found (map (fun m => dget h m name) ms).
Proof.
  induction ms as [|m ms IH]; [reflexivity|]. cbn [dget map first_found] in *. rewrite <- IH.
  destruct (dget h m name); reflexivity.
Qed.

Definition agree (h h' : heap) (a : nat) : Prop := nth_error (h_maps h') a = nth_error (h_maps h) a.
Lemma impl_get_agree h h' a name : agree h h' a -> impl_get h' a name = impl_get h a name.
Proof. unfold impl_get, agree. now intros ->. Qed.
Lemma dget_agree h h' m name : (forall a, In a (addrs m) -> agree h h' a) -> dget h' m name = dget h m name.
Proof.
  induction m as [a|p a IH|ms IH| |] using dmap_ind'; intros H; auto.
  - apply impl_get_agree, H. now left.
  - cbn [dget]. rewrite (impl_get_agree h h') by (apply H; now left).
    rewrite IH; auto. intros b I. apply H. now right.
  - rewrite !dget_composite. f_equal. apply map_ext_in. intros m I.
    rewrite Forall_forall in IH. apply IH; auto. intros a J. apply H. cbn. apply in_flat_map. eauto.
Qed.
Lemma dget_only a h h' m name : only a h h' -> ~ In a (addrs m) -> dget h' m name = dget h m name.
Proof. intros O N. apply dget_agree. intros b I. apply (on_maps _ _ _ O). congruence. Qed.

Lemma impl_set_only h a ds :
  match impl_set h a ds with SOk h' => only a h h' | SErr h' _ => only a h h' | SPanic => True end.
Proof.
  revert h. induction ds as [|[i d] ds IH]; intros h; cbn [impl_set]; [apply only_refl|].
  destruct (nth_error (h_maps h) a) as [m|] eqn:E; auto.
  destruct (mget _ m) as [[old|]|]; auto.
  - destruct (i_loc i); auto. destruct (option_map _ _) as [[?|]|]; auto. apply only_refl.
  - specialize (IH (with_maps (set_nth a (mput (regularize (i_name i)) (Some d) m) (h_maps h)) h)).
    destruct (impl_set _ a ds); auto; eapply only_trans; eauto; apply only_put.
Qed.
Lemma dset_impl h m a ds : target m = Some a -> dset h m ds = impl_set h a ds.
Proof.
  revert a. induction m as [b|p b IH|ms IH| |] using dmap_ind'; intros a T; cbn in *; try congruence.
  destruct ms as [|m ms]; try congruence. apply Forall_inv in IH. now apply IH.
Qed.
Lemma dset_target h m ds h' :
  dset h m ds = SOk h' \/ (exists i, dset h m ds = SErr h' i) ->
  match target m with Some a => only a h h' | None => h' = h end.
Proof.
  destruct (target m) as [a|] eqn:T.
  - rewrite (dset_impl h m a) by auto. pose proof (impl_set_only h a ds) as O.
    intros [E|[i E]]; now rewrite E in O.
  - induction m as [b|p b IH|ms IH| |] using dmap_ind'; cbn in *; try congruence.
    + destruct ms as [|m ms]; [intros [E|[i E]]; congruence|]. apply Forall_inv in IH. auto.
    + intros [E|[i E]]; congruence.
    + intros [E|[i E]]; congruence.
Qed.
Lemma doverwrite_impl h m a n d : target m = Some a -> doverwrite h m n d = impl_overwrite h a n d.
Proof.
  revert a. induction m as [b|p b IH|ms IH| |] using dmap_ind'; intros a T; cbn in *; try congruence.
  destruct ms as [|m ms]; try congruence. apply Forall_inv in IH. now apply IH.
Qed.
Lemma doverwrite_target h m n d h' :
  doverwrite h m n d = Some h' -> match target m with Some a => only a h h' | None => h' = h end.
Proof.
  destruct (target m) as [a|] eqn:T.
  - rewrite (doverwrite_impl h m a) by auto. unfold impl_overwrite.
    destruct (nth_error _ a); try discriminate. intros [= <-]. apply only_put.
  - induction m as [b|p b IH|ms IH| |] using dmap_ind'; cbn in *; try congruence.
    destruct ms as [|m ms]; [congruence|]. apply Forall_inv in IH. auto.
Qed.
Lemma do_call_target h m c h' a :
  do_call h m c = Some (h', a) -> match target m with Some a => only a h h' | None => h' = h end.
Proof.
  destruct c as [ds|n d]; cbn.
  - destruct (dset h m ds) as [h1|h1 i|] eqn:E; intros [= <- <-]; eapply dset_target; eauto.
  - destruct (doverwrite h m n d) as [h1|] eqn:E; intros [= <- <-]. eapply doverwrite_target; eauto.
Qed.
Lemma do_calls_target h m cs h' l :
  do_calls h m cs = Some (h', l) -> match target m with Some a => only a h h' | None => h' = h end.
Proof.
  revert h l. induction cs as [|c cs IH]; intros h l; cbn [do_calls].
  - intros [= <- <-]. destruct (target m); auto. apply only_refl.
  - destruct (do_call h m c) as [[h1 a]|] eqn:E; try discriminate.
    destruct (do_calls h1 m cs) as [[h2 r]|] eqn:E2; try discriminate. intros [= <- <-].
    apply do_call_target in E. apply IH in E2. destruct (target m); [eapply only_trans|congruence]; eauto.
Qed.

Lemma target_in_addrs m a : target m = Some a -> In a (addrs m).
Proof.
  induction m as [b|p b IH|ms IH| |] using dmap_ind'; cbn; try congruence.
  - intros [= ->]. now left.
  - intros [= ->]. now left.
  - destruct ms as [|m ms]; try congruence. apply Forall_inv in IH. intros T. cbn. apply in_or_app. left. auto.
Qed.

(** ** The log *)

(** A map object holds what the log says. *)
Definition holds (m : mapobj) (l : log) : Prop := forall n, mget (to_lower n) m = latest l n.

Lemma holds_nil : holds [] [].
Proof. now intros n. Qed.
Lemma holds_put m l n d : holds m l -> holds (mput (to_lower n) d m) ((n, d) :: l).
Proof.
  intros H x. cbn [latest]. destruct (same_nameb_spec n x) as [E|E]; unfold same_name in E.
  - rewrite <- E. apply mget_put_eq.
  - rewrite mget_put_neq by congruence. apply H.
Qed.

Lemma impl_set_log h a m l ds :
  nth_error (h_maps h) a = Some m -> holds m l ->
  match impl_set h a ds with
  | SOk h' => exists m', nth_error (h_maps h') a = Some m' /\ holds m' (fst (log_set l ds)) /\ snd (log_set l ds) = AOk
  | SErr h' _ => exists m', nth_error (h_maps h') a = Some m' /\ holds m' (fst (log_set l ds)) /\ snd (log_set l ds) = ARefused
  | SPanic => True
  end.
Proof.
  revert h m l. induction ds as [|[i d] ds IH]; intros h m l E H; cbn [impl_set log_set]; [eauto|].
  rewrite E. unfold regularize. rewrite (H (i_name i)).
  destruct (latest l (i_name i)) as [[old|]|] eqn:L; auto.
  - destruct (i_loc i); auto. destruct (option_map _ _) as [[?|]|]; auto. eauto.
  - apply IH with (m := mput (to_lower (i_name i)) (Some d) m); [|now apply holds_put].
    cbn. apply nth_set_nth_eq. eapply nth_lt; eauto.
Qed.
Lemma do_call_log h mp a m l c h' r :
  target mp = Some a -> nth_error (h_maps h) a = Some m -> holds m l -> do_call h mp c = Some (h', r) ->
  exists m', nth_error (h_maps h') a = Some m' /\ holds m' (fst (log_call l c)) /\ snd (log_call l c) = r.
Proof.
  intros T E H. destruct c as [ds|n d]; cbn [do_call log_call].
  - rewrite (dset_impl h mp a ds T). pose proof (impl_set_log h a m l ds E H) as X.
    destruct (impl_set h a ds); intros [= <- <-]; auto.
  - rewrite (doverwrite_impl h mp a n d T). unfold impl_overwrite. rewrite E. intros [= <- <-].
    eexists. split; [|split; [apply holds_put; eauto|reflexivity]].
    cbn. apply nth_set_nth_eq. eapply nth_lt; eauto.
Qed.
Lemma do_calls_log h mp a m l cs h' rs :
  target mp = Some a -> nth_error (h_maps h) a = Some m -> holds m l -> do_calls h mp cs = Some (h', rs) ->
  exists m', nth_error (h_maps h') a = Some m' /\ holds m' (fst (log_calls l cs)) /\ snd (log_calls l cs) = rs.
Proof.
  intros T. revert h m l rs. induction cs as [|c cs IH]; intros h m l rs E H; cbn [do_calls log_calls].
  - intros [= <- <-]. eauto.
  - destruct (do_call h mp c) as [[h1 r]|] eqn:C; try discriminate.
    destruct (do_calls h1 mp cs) as [[h2 r2]|] eqn:C2; try discriminate. intros [= <- <-].
    destruct (do_call_log h mp a m l c h1 r T E H C) as (m1 & E1 & H1 & A1).
    destruct (log_call l c) as [l1 a1]. cbn in *. subst a1.
    destruct (IH h1 m1 l1 r2 E1 H1 C2) as (m2 & E2 & H2 & A2).
    destruct (log_calls l1 cs) as [l2 a2]. cbn in *. subst. eauto.
Qed.
Lemma impl_get_told h a m l name : nth_error (h_maps h) a = Some m -> holds m l -> impl_get h a name = told (latest l name).
Proof. intros E H. unfold impl_get, regularize. rewrite E, (H name). reflexivity. Qed.

End WithUnicode.
