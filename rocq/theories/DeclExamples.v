(** Programs and types on concrete texts, for the examples. *)
From Coq Require Import String List NArith Bool Arith Lia.
From Verif Require Import Runes UnicodeFacts Token Tokenizer LexSpec LexMain LexExamples Ast Heap MapSpec Prog ParseSpec RunFacts
  ExprSpec StmtSpec DeclSpec ScopeFacts DeclMain UnitSpec UnitTextSpec ProgramTextSpec ParseExamples.
Import ListNotations.
#[local] Existing Instance latin1 | 100.
#[local] Existing Instance latin1_ok | 100.

(** Latin letters: names that agree in lower case with one in ASCII agree in upper case. *)
Lemma low_ascii r : (@u_lower latin1 r < 128)%N -> (r < 128)%N.
Proof.
  cbn. unfold between. repeat match goal with |- context [if ?b then _ else _] => destruct b eqn:? end; intros H; try lia.
Qed.
Lemma ascii_agree : forallb (fun a => forallb (fun b => negb (N.eqb (@u_lower latin1 (N.of_nat a)) (@u_lower latin1 (N.of_nat b))) ||
  N.eqb (@u_upper latin1 (N.of_nat a)) (@u_upper latin1 (N.of_nat b))) (seq 0 128)) (seq 0 128) = true.
Proof. vm_compute. reflexivity. Qed.
Lemma rune_agree r q : (q < 128)%N -> @u_lower latin1 r = @u_lower latin1 q -> @u_upper latin1 r = @u_upper latin1 q.
Proof.
  intros Q E. assert (L : forall x, (x < 128)%N -> (@u_lower latin1 x < 128)%N).
  { intros x. cbn. unfold between. repeat match goal with |- context [if ?b then _ else _] => destruct b eqn:? end; intros H; lia. }
  assert (R : (r < 128)%N) by (apply low_ascii; rewrite E; now apply L).
  pose proof ascii_agree as F. rewrite forallb_forall in F. specialize (F (N.to_nat r)). rewrite forallb_forall in F.
  specialize (F ltac:(apply in_seq; lia) (N.to_nat q) ltac:(apply in_seq; lia)). rewrite !N2Nat.id, E, N.eqb_refl in F. cbn in F. now apply N.eqb_eq.
Qed.
Lemma name_agree n : Forall (fun r => (r < 128)%N) n -> forall m, same_name m n -> to_upper m = to_upper n.
Proof.
  unfold same_name, to_lower, to_upper. induction 1 as [|q n Q F IH]; intros [|r m] E; try discriminate; [reflexivity|].
  injection E as E1 E2. cbn [map]. f_equal; [now apply rune_agree|now apply IH].
Qed.
Lemma same_get n : Forall (fun r => (r < 128)%N) n -> forall m, same_name m n -> embedded_get m = embedded_get n.
Proof. intros F m S. unfold embedded_get. now rewrite (name_agree n F m S). Qed.

(** What is known at the start of a program is known in a new parser. *)
Lemma at_token_heap n src : s_heap (at_token n src) = s_heap (opened src) /\ s_ctx (at_token n src) = s_ctx (opened src).
Proof.
  unfold at_token. induction n as [|n IH]; [auto|]. cbn [advance]. unfold next_token. destruct (get_next (s_tok (advance n (opened src)))); cbn; auto.
Qed.
Lemma at_token_knows n src ws : stands (rs src) (at_token n src) ws -> knows (at_token n src) program_scope.
Proof.
  intros St. destruct (at_token_heap n src) as [Eh Ec].
  eapply (in_scope_at (rs src) _ _ ws), (program_start (rs src) (rs "p.dpr")); rewrite ?Eh, ?Ec; try reflexivity. exact St.
Qed.

(** Small trees. *)
Definition id (x : string) : ident := mkIdent (rs x) None.
Definition tid (x : string) : typeid := mkTypeId None (id x) 0.
Definition ty (x : string) : typ := TId (tid x).
Definition var (x : string) : expr := an_expr (a_var x).
Definition num (x : string) : expr := an_expr (FNumber (rs x)).
Definition spell : style.
Proof.
  refine (mkStyle (mkSpelling true (rs "on") (rs "at") eq_refl eq_refl) (rs "absolute") (rs "name") (rs "Index") (fun d => to_lower d) (fun d => to_lower d)
    (fun b => rs (if b then "True" else "False")) eq_refl eq_refl eq_refl _ _ _).
  - intros d J. unfold directives in J. repeat (destruct J as [<-|J]; [vm_compute; reflexivity|]). destruct J.
  - intros d J. unfold visibility_words, method_words, property_words in J. repeat (destruct J as [<-|J]; [vm_compute; reflexivity|]). destruct J.
  - intros []; vm_compute; reflexivity.
Defined.
(** The conditions of trees on names and literals, in the scopes of programs without a uses
    clause. *)
Lemma digits w : w <> [] -> forallb (fun r => (48 <=? r) && (r <=? 57))%N w = true -> lexeme NumeralInt w.
Proof.
  intros NE F. apply (lx_int [] w); [left; reflexivity|exact NE|]. rewrite forallb_forall in F. apply Forall_forall. intros r J. specialize (F r J).
  unfold Digit. lia.
Qed.
Lemma denotes_same l m n : same_name m n -> denotes l m = denotes l n.
Proof. intros S. induction l as [|u l IH]; cbn [denotes]; [reflexivity|]. rewrite IH. unfold declares, named. now rewrite S. Qed.
(** Names with the same letters are alike in scopes. *)
Definition ascii (n : gostring) : Prop := Forall (fun r => (r < 128)%N) n.
Definition fair (sc : scope) : Prop :=
  forall n m, ascii n -> same_name m n ->
    (plain_name (names (known sc)) n -> plain_name (names (known sc)) m) /\ (no_label (known sc) n -> no_label (known sc) m).
Lemma same_other n m x : same_name m n -> ~ same_name n x -> ~ same_name m x.
Proof. unfold same_name. congruence. Qed.
Lemma fair_program : fair program_scope.
Proof. intros n m A S. cbn. rewrite (same_get n A m S). auto. Qed.
Lemma fair_declare ns sc : fair sc -> fair (declare ns sc).
Proof. intros F. exact F. Qed.
Lemma fair_enter sc : fair sc -> fair (enter sc).
Proof. intros F. exact F. Qed.
Lemma fair_as_type n b sc : fair sc -> fair (declare_as_type n b sc).
Proof.
  intros F x m A S. destruct (F x m A S) as [P N]. split; cbn; [|exact N]. intros [X Y]. split; [auto|eapply same_other; eauto].
Qed.
Lemma fair_as_label n sc : fair sc -> fair (declare_as_label n sc).
Proof.
  intros F x m A S. destruct (F x m A S) as [P N]. split; cbn; [exact P|]. intros [X Y]. split; [auto|eapply same_other; eauto].
Qed.
Lemma fair_leave a b : fair a -> fair b -> fair (leave a b).
Proof.
  intros Fa Fb x m A S. destruct (Fa x m A S) as [P N]. destruct (Fb x m A S) as [P' N']. split; cbn; intuition.
Qed.
Lemma fair_unit n sc : fair sc -> fair (declare_unit n sc).
Proof.
  intros F x m A S. destruct (F x m A S) as [P N]. split; cbn.
  - intros [X Y]. split; [auto|eapply same_other; eauto].
  - intros [X|X]; [auto|]. right. unfold same_name in *. congruence.
Qed.
Lemma fair_units ns : forall sc, fair sc -> fair (declare_units ns sc).
Proof. unfold declare_units. induction ns as [|n ns IH]; intros sc F; cbn [fold_left]; [exact F|]. now apply IH, fair_unit. Qed.
Lemma fair_clause l sc : fair sc -> fair (after_clause l sc).
Proof. apply fair_units. Qed.
Lemma fair_import l sc : fair sc -> fair (import l sc).
Proof.
  intros F x m A S. destruct (F x m A S) as [P N]. split; cbn; rewrite (denotes_same l m x S); [|intuition]. destruct (denotes l x); auto.
Qed.
Lemma fair_beside l sc : fair sc -> fair (beside l sc).
Proof.
  intros F x m A S. destruct (F x m A S) as [P N]. split; cbn; [|exact N]. intros [X Y]. split; [auto|]. now rewrite (denotes_same l m x S).
Qed.
Lemma fair_qualified l sc : fair sc -> fair (qualified l sc).
Proof. intros F. exact F. Qed.
Lemma fair_all {A} (f : A -> scope -> scope) l : (forall a sc, In a l -> fair sc -> fair (f a sc)) -> forall sc, fair sc -> fair (behind_all f l sc).
Proof.
  unfold behind_all. induction l as [|a l IH]; intros Ff sc F; cbn [fold_left]; [exact F|]. apply IH; [intros b x J; apply Ff; now right|]. apply Ff; [now left|exact F].
Qed.
Fixpoint fair_section (d : declsection) : forall sc, fair sc -> fair (after_section d sc)
with fair_block (b : block) : forall sc, fair sc -> fair (after_block b sc).
Proof.
  - destruct d as [i|l|l|l|l|h dirs opts b]; intros sc F; cbn [after_section].
    + now apply fair_as_label.
    + apply fair_all; [|exact F]. intros a x _ G. exact G.
    + apply fair_all; [|exact F]. intros a x _ G. now apply fair_as_type, fair_declare.
    + apply fair_all; [|exact F]. intros a x _ G. exact G.
    + apply fair_all; [|exact F]. intros a x _ G. exact G.
    + apply fair_leave; [exact F|]. apply fair_block. exact F.
  - destruct b as [ds ex body]; intros sc F; cbn [after_block].
    assert (G : fair match ds with None => sc | Some l => behind_all after_section l sc end).
    { destruct ds as [l|]; [|exact F]. unfold behind_all. revert sc F. induction l as [|d l IH]; intros sc F; cbn [fold_left]; [exact F|]. apply IH. now apply fair_section. }
    destruct body as [[]|]; exact G.
Qed.
Lemma fair_intf d sc : fair sc -> fair (after_intf d sc).
Proof.
  destruct d; cbn [after_intf]; intros F; try now apply fair_section. apply fair_leave; [exact F|]. exact F.
Qed.
Lemma fair_interface all u : fair (interface_scope all u).
Proof. apply fair_unit, fair_import, fair_qualified, fair_clause, fair_program. Qed.
Lemma fair_behind all u : fair (behind_interface all u).
Proof. apply fair_all; [intros; now apply fair_intf|apply fair_interface]. Qed.
Lemma fair_implementation all u : fair (implementation_scope all u).
Proof. apply fair_beside, fair_qualified, fair_clause, fair_behind. Qed.
Lemma fair_main all p : fair (block_scope all p).
Proof. apply fair_unit, fair_qualified, fair_units, fair_import, fair_clause, fair_program. Qed.
Lemma fair_may_declare sc ns : fair sc -> NoDup (map to_lower ns) ->
  Forall (fun n => ascii n /\ free sc n /\ plain_name (names (known sc)) n /\ no_label (known sc) n) ns -> may_declare sc ns.
Proof.
  intros F N A. split; [exact N|]. intros n J. rewrite Forall_forall in A. destruct (A n J) as (As & Fr & P & Nl). split; [exact Fr|].
  intros m S. destruct (F n m As S). auto.
Qed.
Ltac fairly :=
  cbv beta iota zeta;
  lazymatch goal with
  | |- fair program_scope => apply fair_program
  | |- fair (interface_scope _ _) => apply fair_interface
  | |- fair (behind_interface _ _) => apply fair_behind
  | |- fair (implementation_scope _ _) => apply fair_implementation
  | |- fair (block_scope _ _) => apply fair_main
  | |- fair (after_section _ _) => apply fair_section; fairly
  | |- fair (after_intf _ _) => apply fair_intf; fairly
  | |- fair (after_block _ _) => apply fair_block; fairly
  | |- fair (after_clause _ _) => apply fair_clause; fairly
  | |- fair (declare_unit _ _) => apply fair_unit; fairly
  | |- fair (declare _ _) => apply fair_declare; fairly
  | |- fair (enter _) => apply fair_enter; fairly
  | |- fair (declare_as_type _ _ _) => apply fair_as_type; fairly
  | |- fair (declare_as_label _ _) => apply fair_as_label; fairly
  | |- fair (leave _ _) => apply fair_leave; fairly
  | |- fair (behind_all _ _ _) => apply fair_all; [intros; fairly|fairly]
  | |- fair (import _ _) => apply fair_import; fairly
  | |- fair (beside _ _) => apply fair_beside; fairly
  | |- fair (qualified _ _) => apply fair_qualified; fairly
  | |- fair (?f _ _ _) => unfold f; fairly
  | |- fair (?f _ _) => unfold f; fairly
  | |- fair (?f _) => unfold f; fairly
  | |- fair ?x => first [assumption | unfold x; fairly]
  end.
Ltac closed := solve [vm_compute; first [reflexivity | discriminate | intuition discriminate]].
(** That a name is a member of a unit, in the scopes of an example *)
Ltac qualifies := fail.
Ltac good :=
  lazymatch goal with
  | |- True => exact I
  | |- False => fail
  | |- _ /\ _ => split; good
  | |- may_declare _ _ => apply fair_may_declare; [fairly|vm_compute; repeat constructor; cbn; intuition discriminate|]; good
  | |- embedded_get ?m = None =>
      first [is_var m; match goal with S : same_name m ?n |- _ => rewrite (same_get n ltac:(repeat constructor) m S) end | idtac]; closed
  | |- embedded_get _ <> None => closed
  | |- same_name _ _ => closed
  | |- ~ same_name ?m _ => first [is_var m; match goal with S : same_name m _ |- _ => unfold same_name in *; rewrite S end | idtac]; closed
  | |- lexeme NumeralInt _ \/ _ => left; apply digits; [discriminate|reflexivity]
  | |- exists d d', member _ _ _ d d' => qualifies
  | |- _ \/ _ => first [left; good; fail | right; good; fail]
  | |- ~ In _ _ => closed
  | |- In _ _ => closed
  | |- _ <> _ => closed
  | |- _ = _ => closed
  | |- ascii _ => vm_compute; repeat constructor
  | |- Forall _ _ => first [apply Forall_nil | apply Forall_cons]; good
  | |- _ -> False => closed
  | |- forall q, ?d = Desig q [] -> _ => let q := fresh "q" in let E := fresh "E" in intros q E; injection E as <-; good
  | |- forall d, ?x = Some d -> ~ _ => let d := fresh "d" in let E := fresh "E" in intros d E; vm_compute in E;
      first [discriminate E | injection E as <-; vm_compute; tauto]
  | |- ?A -> ?B => let H := fresh "H" in intros H; good
  | |- forall _, _ => intro; good
  | |- _ => first [progress hnf | progress cbn]; good
  end.

(** [written] by computation: the [n] tokens of the text, and its end. *)
Definition lexemes (n : nat) (text : list rune) : list (ttype * list rune) :=
  match read_n n (new_tokenizer text false false) with Some (ts, _) => map lexeme_of ts | None => [] end.
Definition reads_out (n : nat) (text : list rune) : bool :=
  match read_n n (new_tokenizer text false false) with
  | Some (ts, k) =>
      forallb (fun t => negb (ttype_eqb (t_type t) EOF)) ts && forallb (fun r => negb (N.eqb r 0)) text &&
      match get_next k with GTok e _ => ttype_eqb (t_type e) EOF | _ => false end
  | None => false
  end.
Lemma read_n_reads n : forall k ts k', read_n n k = Some (ts, k') -> reads k ts k'.
Proof.
  induction n as [|n IH]; intros k ts k'; cbn [read_n]; [intros [= <- <-]; constructor|].
  destruct (get_next k) as [t k1|k1|] eqn:G; try discriminate. destruct (read_n n k1) as [[ts1 k2]|] eqn:R; [|discriminate].
  intros [= <- <-]. econstructor; [exact G|]. now apply IH.
Qed.
Lemma reads_snoc k ts k1 e k2 : reads k ts k1 -> get_next k1 = GTok e k2 -> reads k (ts ++ [e]) k2.
Proof. induction 1; intros G; cbn [app]; econstructor; eauto. constructor. Qed.
Lemma written_by_reading n text : reads_out n text = true -> written (lexemes n text) text.
Proof.
  unfold reads_out, lexemes. destruct (read_n n (new_tokenizer text false false)) as [[ts k]|] eqn:R; [|discriminate].
  intros H. apply andb_prop in H as [H He]. apply andb_prop in H as [Ht Hz]. destruct (get_next k) as [e k'|k'|] eqn:G; try discriminate.
  apply (lexical_round_trip_converse text ts e k').
  - intros J. rewrite forallb_forall in Hz. now specialize (Hz _ J).
  - eapply reads_snoc; [eapply read_n_reads, R|exact G].
  - rewrite forallb_forall in Ht. apply Forall_forall. intros t J E. specialize (Ht t J). now rewrite E in Ht.
  - now destruct (t_type e).
Qed.
