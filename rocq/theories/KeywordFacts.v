(** HasKeyword (token/type.go:61-69) panics for a word that is not reserved.  It is called with
    literals only; these are all of them in /repo, without its tests. *)
From Coq Require Import String List NArith Bool.
From Verif Require Import Runes Token.
Import ListNotations.

Definition keyword_literals : list string :=
  ["AND"; "ARRAY"; "ASM"; "BEGIN"; "CASE"; "CLASS"; "CONST"; "CONSTRUCTOR"; "DESTRUCTOR";
   "DIV"; "DO"; "ELSE"; "END"; "EXCEPT"; "EXPORTS"; "FILE"; "FINALIZATION"; "FINALLY";
   "FOR"; "FUNCTION"; "GOTO"; "IF"; "IMPLEMENTATION"; "IN"; "INHERITED"; "INITIALIZATION";
   "INTERFACE"; "IS"; "LABEL"; "MOD"; "OBJECT"; "OF"; "OR"; "PACKED"; "PROCEDURE";
   "PROGRAM"; "PROPERTY"; "RAISE"; "RECORD"; "REPEAT"; "SET"; "SHL"; "SHR"; "THEN";
   "THREADVAR"; "TRY"; "TYPE"; "UNIT"; "UNTIL"; "USES"; "VAR"; "WHILE"; "WITH"; "XOR"]%string.

Lemma keyword_literals_are_reserved : forall w, In w keyword_literals -> str_in (rs w) reserved_words = true.
Proof. apply Forall_forall. repeat constructor. Qed.
