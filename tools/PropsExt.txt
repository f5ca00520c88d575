(** Properties of string sets, string lists and the logger.  Definitions used in
    the statements are in ExtSpec (and the model in Ext); proofs in ExtMain. *)
From Coq Require Import List NArith Bool Arith String Lia Permutation Sorted List.
From Verif Require Import Runes Token LexSpec LexExamples Ext ExtSpec ExtMain.
Import ListNotations.

Local Notation a := (rs "a").
Local Notation b := (rs "b").
Local Notation c := (rs "c").

@@ C40 ExtMain include_is_membership
After any history of Add and Remove, Include tells who was added and not removed since.
---
Example include_is_membership_case :
  let h := [OpAdd a; OpAdd b; OpRemove a; OpAdd b] in
  ss_include (set_run h) b = true /\ ss_include (set_run h) a = false /\ member_after h b.
Proof.
  repeat split. exists [OpAdd a; OpAdd b; OpRemove a], []. split; [reflexivity|]. intros [].
Qed.

@@ C40 ExtMain set_equal_iff
Equal compares two sets as sets, whatever histories led to them.
---
Example set_equal_iff_case :
  ss_equal (set_run [OpAdd a; OpAdd b; OpAdd c; OpRemove c]) (set_run [OpAdd b; OpAdd a; OpAdd a]) = true /\
  ss_equal (set_run [OpAdd a; OpAdd b]) (set_run [OpAdd b; OpAdd c]) = false.
Proof. split; reflexivity. Qed.

@@ C40 ExtMain slice_lists_members_once
Slice lists each member once, in whatever order the map iterates.
---
Example slice_lists_members_once_case :
  iterates (@rev gostring) /\ ss_slice (@rev gostring) (set_run [OpAdd a; OpAdd b; OpAdd a]) = [a; b].
Proof. split; [intros m; apply Permutation_rev|reflexivity]. Qed.

@@ C40 ExtMain set_of_strings
A set built from a list has its elements and no others, each once.
---
Example set_of_strings_case : new_string_set [a; b; a] = [b; a].
Proof. reflexivity. Qed.

@@ C41 ExtMain reverse_backwards
Reverse keeps the length and reads the list from its end.
---
Example reverse_backwards_case : strs_reverse [a; b; c] = [c; b; a].
Proof. reflexivity. Qed.

@@ C41 ExtMain reverse_involutive
Reversing twice is doing nothing.
---

@@ C41 ExtMain map_elementwise
Map applies the function at every index.
---
Example map_elementwise_case : strs_map (fun x => x ++ x) [a; b] = [rs "aa"; rs "bb"].
Proof. reflexivity. Qed.

@@ C41 ExtMain include_iff
Include is membership.
---
Example include_iff_case : strs_include [a; b] b = true /\ strs_include [a; b] c = false.
Proof. split; reflexivity. Qed.

@@ C41 ExtMain select_picks
Select keeps, in order, exactly the elements that pass the test.
---
Example select_picks_case : strs_select (fun x => negb (runes_equal x b)) [c; b; a] = [c; a].
Proof. reflexivity. Qed.

@@ C41 ExtMain exclude_picks
Exclude keeps, in order, exactly the elements not given.
---
Example exclude_picks_case : strs_exclude [c; b; a; b] [b; rs "x"] = [c; a].
Proof. reflexivity. Qed.

@@ C41 ExtMain select_exclude_partition
Selecting the members of a list and excluding it split the elements between them.
---
Example select_exclude_partition_case :
  strs_select (strs_include [b]) [c; b; a; b] = [b; b] /\ strs_exclude [c; b; a; b] [b] = [c; a].
Proof. split; reflexivity. Qed.

@@ C41 ExtMain strings_equal_iff
Equal is equality of lists.
---
Example strings_equal_iff_case :
  strs_equal [a; b] [a; b] = true /\ strs_equal [a; b] [b; a] = false /\ strs_equal [a] [a; b] = false.
Proof. repeat split. Qed.

@@ C41 ExtMain sort_sorts
Sort gives a sorted permutation.
---
Example sort_sorts_case : strs_sort [c; rs "ab"; a; b] = [a; rs "ab"; b; c].
Proof. reflexivity. Qed.

@@ C41 ExtMain sort_unique
There is only one sorted permutation, so the sorting method does not matter.
---
Example sort_unique_case : Permutation [c; a; b] [a; b; c] /\ ascending [a; b; c].
Proof.
  split; [exact (Permutation_cons_append [a; b] c)|]. repeat constructor.
Qed.

@@ C41 ExtMain extract_strings_spec
ExtractStrings splits its arguments into strings and the rest, both in order.
---
Example extract_strings_spec_case :
  extract_strings [AString a; AOther 1; AStrings [b; c]; ASet [a]] = ([a; b; c], [AOther 1; ASet [a]]).
Proof. reflexivity. Qed.

@@ C42 ExtMain logger_restored
However SetLogger calls nest, the logger afterwards is the one before.
---
Example logger_restored_case :
  log_run (LMessage (LWith 1 (LMessage (LWith 2 (LMessage LDone) LDone)) (LMessage LDone))) 0 = (0, [0; 1; 2; 0]).
Proof. reflexivity. Qed.

@@ C42 ExtMain messages_reach_innermost_logger
Each message goes to the logger set by the innermost call still in force.
---
