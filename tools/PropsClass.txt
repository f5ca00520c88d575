(** Properties of types and classes.  Definitions used in the statements are in ClassSpec
    (and the model in Ast, Heap, Classes); proofs in ClassMain. *)
From Coq Require Import String List NArith Bool Arith Lia Relations List.
From Verif Require Import Runes UnicodeFacts Token Ast Ext Heap MapSpec Classes ClassSpec ClassMain.
Import ListNotations.

(** The examples use the Latin-1 tables. *)
#[local] Existing Instance latin1 | 100.

Local Lemma latin1_lower_twice : forall r, u_lower (u_lower r) = u_lower r.
Proof.
  intros r. cbn. unfold between.
  repeat match goal with |- context [if ?b then _ else _] =>
    lazymatch b with context [if _ then _ else _] => fail | _ => destruct b eqn:? end end; lia.
Qed.

Local Definition id (s : string) : ident := mkIdent (rs s) None.
Local Definition tid (s : string) (ref : nat) : typeid := mkTypeId None (id s) ref.
(** type A = Integer; type B = A; type C = B; type L = L; var v; and an unresolved
    reference. *)
Local Definition types : heap :=
  with_refs [Some (Emb 7); Some (Ptr 0); Some (Ptr 1); Some (Ptr 2); Some (Ptr 3); None]
  (with_decls [mkDecl (id "A") (NType (TId (tid "Integer" 0)));
               mkDecl (id "B") (NType (TId (tid "A" 1)));
               mkDecl (id "L") (NType (TId (tid "L" 3)));
               mkDecl (id "v") NVar] heap0).

(** type T0 = class private p: Integer; public a, b: Integer; procedure M; end;
         T1 = class(T0) B: Integer; end;   T2 = class(T1) private q: Integer; end;
    and a class X that inherits from itself. *)
Local Definition T0 : cls :=
  (None, Some [ClassSection CvPrivate [([id "p"], TNil)] [] [];
               ClassSection CvPublic [([id "a"; id "b"], TNil)]
                 [ClassMethod (HFunc (Heading false (id "M") None None)) []] []]).
Local Definition T1 : cls := (Some [tid "T0" 0], Some [ClassSection CvDefault [([id "B"], TNil)] [] []]).
Local Definition T2 : cls := (Some [tid "T1" 1], Some [ClassSection CvPrivate [([id "q"], TNil)] [] []]).
Local Definition X : cls := (Some [tid "X" 2], Some []).
Local Definition classes : heap :=
  with_refs [Some (Ptr 0); Some (Ptr 1); Some (Ptr 2)]
  (with_decls [mkDecl (id "T0") (NType (TClass (fst T0) (snd T0)));
               mkDecl (id "T1") (NType (TClass (fst T1) (snd T1)));
               mkDecl (id "X") (NType (TClass (fst X) (snd X)))] heap0).
Local Lemma T2_lineage : lineage classes T2 [T1; T0].
Proof.
  apply lin_step; [exists (tid "T1" 1), []; split; [reflexivity|]; eexists (Ptr 1), _; split; reflexivity|].
  apply lin_step; [exists (tid "T0" 0), []; split; [reflexivity|]; eexists (Ptr 0), _; split; reflexivity|].
  apply lin_root. intros c' (ti & more & E & _). discriminate.
Qed.

(** property V: index 1 read R; property V write W; property V read Q. *)
Local Definition rdr (s : string) : identref := mkIdentRef (id s) None.
Local Definition one : expr := Expr (SExpr None (Term (FNumber (rs "1")) []) []) [].
Local Definition V0 : cprop := ClassProp (id "V") None (Some one) (Some (rdr "R")) None None None None None.
Local Definition V1 : cprop := ClassProp (id "v") None None None (Some (rdr "W")) None None None (Some V0).
Local Definition V2 : cprop := ClassProp (id "V") None None (Some (rdr "Q")) None None None None (Some V1).
Local Lemma V2_chain : chain V2 [V2; V1; V0].
Proof. repeat (eapply ch_over; [reflexivity|]). now apply ch_root. Qed.

@@ C27 ClassMain member_lookup
FindMemberDecl.  [lineage] lists all ancestors, nearest first; the answer is the first
    member of that name up to letter case among the class's own sections (those that are
    not private unless asked for) and then the ancestors' sections that are not private,
    and nil iff there is none.  The hypothesis on [u_lower] holds of Go's tables.
---
Example member_lookup_case :
  lineage classes T2 [T1; T0] /\
  finds_member classes T2 (rs "b") false (Some (mkDecl (id "B") NField)) /\
  finds_member classes T2 (rs "m") false (Some (mkDecl (id "M") NMethod)) /\
  finds_member classes T2 (rs "P") true None /\
  finds_member classes T2 (rs "Q") false None /\
  finds_member classes T2 (rs "Q") true (Some (mkDecl (id "q") NField)).
Proof.
  split; [exact T2_lineage|].
  repeat split; apply (member_lookup _ _ _ _ _ _ latin1_lower_twice T2_lineage); reflexivity.
Qed.

@@ C27 ClassMain property_lookup
FindProperty: the first property of that name in the class and, when asked for, its
    ancestors.  Unlike FindMemberDecl it sees private sections of ancestors.
---
Example property_lookup_case :
  let base : cls := (None, Some [ClassSection CvPrivate [] [] [V0]]) in
  let h := with_refs [Some (Ptr 0)] (with_decls [mkDecl (id "TB") (NType (TClass (fst base) (snd base)))] heap0) in
  let c : cls := (Some [tid "TB" 0], None) in
  lineage h c [base] /\
  finds_property h c (rs "v") true (Some V0) /\ finds_property h c (rs "v") false None /\
  finds_member h c (rs "v") true None.
Proof.
  cbv zeta. assert (L : lineage (with_refs [Some (Ptr 0)] (with_decls
    [mkDecl (id "TB") (NType (TClass None (Some [ClassSection CvPrivate [] [] [V0]])))] heap0))
    (Some [tid "TB" 0], None) [(None, Some [ClassSection CvPrivate [] [] [V0]])]).
  { apply lin_step; [exists (tid "TB" 0), []; split; [reflexivity|]; eexists (Ptr 0), _; split; reflexivity|].
    apply lin_root. intros c' (ti & more & E & _). discriminate. }
  repeat split; try exact L; try (apply (property_lookup _ _ _ _ _ _ L); reflexivity).
  apply (member_lookup _ _ _ _ _ _ latin1_lower_twice L); reflexivity.
Qed.

@@ C27 ClassMain cyclic_lookup_never_returns
When the ancestors never end (a cyclic heritage) and none of them has the member, the
    lookup does not return.
---
Example cyclic_lookup_case : forall r, ~ finds_member classes X (rs "q") true r.
Proof.
  apply cyclic_lookup_never_returns; [exact latin1_lower_twice|].
  assert (S : superclass classes X X)
    by (exists (tid "X" 2), []; split; [reflexivity|]; eexists (Ptr 2), _; split; reflexivity).
  assert (K : forall a b, superclass classes a b -> a = X -> b = X).
  { intros a b (ti & more & E & d & i & R & D) ->. cbn [fst X] in E. injection E as <- <-.
    cbn in R. injection R as <-. destruct b as [her mem]. cbn in D. now injection D as _ <- <-. }
  intros c' R. assert (c' = X).
  { assert (G : forall a b, clos_refl_trans _ (superclass classes) a b -> a = X -> b = X)
      by (induction 1 as [a b Q| |a b c R1 IH1 R2 IH2]; [exact (K a b Q)|auto|auto]).
    exact (G _ _ R eq_refl). }
  subst c'. split; [constructor|exists X; exact S].
Qed.

@@ C28 ClassMain computed_property_merges
ComputedProperty: each specifier is the nearest one given along the chain, absent iff
    none gives it; the result has no parent.  Its name is spelled as at the root of the
    chain.
---
Example computed_property_merges_case :
  chain V2 [V2; V1; V0] /\
  computed_property V2 =
    ClassProp (id "V") None (Some one) (Some (rdr "Q")) (Some (rdr "W")) None None None None.
Proof. split; [exact V2_chain|reflexivity]. Qed.

@@ C28 ClassMain chain_exists
Every property has a chain, so the theorem above applies to all of them.
---
@@ C28 ClassMain inherits_from_spec
InheritsFrom: some of interface, index, read, write is given along the parent's chain
    and not by the property itself.
---
Example inherits_from_case : inherits_from V2 (Some V1) = true /\ inherits_from V0 (Some V2) = true /\
  inherits_from (ClassProp (id "V") None (Some one) (Some (rdr "Q")) None None None None None) (Some V0) = false.
Proof. repeat split. Qed.

@@ C29 ClassMain alias_answers_as_its_target
A type identifier leading through any number of declarations to [t] answers every
    question exactly as [t] does (including not at all).
---
Example alias_case :
  exists i, leads_to types (tid "B" 2) (TEmbedded EtkOrdIdent i) /\
  answers types (TId (tid "B" 2)) QOrdinal true /\ answers types (TId (tid "B" 2)) QReal false.
Proof.
  eexists. split; [|split; exists 9; reflexivity].
  eapply lt_more; [eexists (Ptr 1), _; split; reflexivity|].
  eapply lt_more; [eexists (Ptr 0), _; split; reflexivity|].
  apply lt_here. eexists (Emb 7), _. split; reflexivity.
Qed.

@@ C29 ClassMain unresolved_answers_no
An identifier without declaration, or declared as something else than a type, answers
    no to every question.
---
Example unresolved_case : (forall t, ~ names types (tid "v" 4) t) /\ answers types (TId (tid "v" 4)) QOrdinal false /\
  answers types (TId (tid "nope" 5)) QOrdinal false.
Proof.
  repeat split; [|exists 1; reflexivity..]. intros t (d & i & R & D). cbn in R. injection R as <-. discriminate.
Qed.

@@ C29 ClassMain shapes_answer_for_themselves
The answers of all types that are not an identifier, a set or a file.
---
@@ C29 ClassMain sets_and_files_answer_as_their_base
A set type answers IsSimpleType and IsOrdinalType as its base type does, and a file
    type answers everything as its element type does (methods promoted from the embedded
    field), so a set of Integer counts as an ordinal type.
---
Example set_counts_as_ordinal : answers types (TSet false (TId (tid "A" 1))) QOrdinal true.
Proof. exists 9. reflexivity. Qed.

@@ C29 ClassMain answers_unique
There is at most one answer.
---
@@ C29 ClassMain classification_returns
There is an answer when following the references does not go on forever.
---
Example classification_returns_case : Acc (looks_at types) (TId (tid "B" 2)).
Proof.
  constructor. intros t L. inversion L as [ti t' (d & i & R & D)| |]; subst. cbn in R. injection R as <-. cbn in D. injection D as _ <-.
  constructor. intros t M1. inversion M1 as [ti t' (d & i' & R & D)| |]; subst. cbn in R. injection R as <-. cbn in D. injection D as _ <-.
  constructor. intros t M2. inversion M2 as [ti t' (d & i'' & R & D)| |]; subst. cbn in R. injection R as <-. cbn in D. injection D as _ <-.
  constructor. intros t M3. inversion M3.
Qed.

@@ C29 ClassMain circular_alias_never_answers
There is none when it does: [type L = L;], which the parser accepts.
---
Example circular_alias_case : forall q b, ~ answers types (TId (tid "L" 3)) q b.
Proof.
  apply circular_alias_never_answers.
  assert (K : forall a b, names types a (TId b) -> ti_ref a = 3 -> ti_ref b = 3).
  { intros a b (d & i & R & D) A. rewrite A in R. cbn in R. injection R as <-. cbn in D. now injection D as _ <-. }
  intros ti' R. assert (ti_ref ti' = 3).
  { assert (G : ti_ref (tid "L" 3) = 3) by reflexivity. revert G.
    induction R as [a b R| |a b c R1 IH1 R2 IH2]; [now apply K|auto|auto]. }
  exists (tid "L" 3), (Ptr 2), (id "L"). rewrite H. split; reflexivity.
Qed.
