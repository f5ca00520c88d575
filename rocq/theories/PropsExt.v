(** Properties of string sets, string lists and the logger.  Definitions used in
    the statements are in ExtSpec (and the model in Ext); proofs in ExtMain. *)
From Coq Require Import List NArith Bool Arith String Lia Permutation Sorted List.
From Verif Require Import Runes Token LexSpec LexExamples Ext ExtSpec ExtMain.
Import ListNotations.

Local Notation a := (rs "a").
Local Notation b := (rs "b").
Local Notation c := (rs "c").

(** C40. After any history of Add and Remove, Include tells who was added and not removed since. *)
Theorem include_is_membership :
  forall h s,
  ss_include (set_run h) s = true <-> member_after h s.
Proof. exact ExtMain.include_is_membership. Qed.
Print Assumptions include_is_membership.

Example include_is_membership_case :
  let h := [OpAdd a; OpAdd b; OpRemove a; OpAdd b] in
  ss_include (set_run h) b = true /\ ss_include (set_run h) a = false /\ member_after h b.
Proof.
  repeat split. exists [OpAdd a; OpAdd b; OpRemove a], []. split; [reflexivity|]. intros [].
Qed.

(** C40. Equal compares two sets as sets, whatever histories led to them. *)
Theorem set_equal_iff :
  forall h h',
  ss_equal (set_run h) (set_run h') = true <->
  (forall s, member_after h s <-> member_after h' s).
Proof. exact ExtMain.set_equal_iff. Qed.
Print Assumptions set_equal_iff.

Example set_equal_iff_case :
  ss_equal (set_run [OpAdd a; OpAdd b; OpAdd c; OpRemove c]) (set_run [OpAdd b; OpAdd a; OpAdd a]) = true /\
  ss_equal (set_run [OpAdd a; OpAdd b]) (set_run [OpAdd b; OpAdd c]) = false.
Proof. split; reflexivity. Qed.

(** C40. Slice lists each member once, in whatever order the map iterates. *)
Theorem slice_lists_members_once :
  forall order h, iterates order ->
  NoDup (ss_slice order (set_run h)) /\
  (forall s, In s (ss_slice order (set_run h)) <-> member_after h s).
Proof. exact ExtMain.slice_lists_members_once. Qed.
Print Assumptions slice_lists_members_once.

Example slice_lists_members_once_case :
  iterates (@rev gostring) /\ ss_slice (@rev gostring) (set_run [OpAdd a; OpAdd b; OpAdd a]) = [a; b].
Proof. split; [intros m; apply Permutation_rev|reflexivity]. Qed.

(** C40. A set built from a list has its elements and no others, each once. *)
Theorem set_of_strings :
  forall l,
  NoDup (new_string_set l) /\ (forall s, In s (new_string_set l) <-> In s l).
Proof. exact ExtMain.set_of_strings. Qed.
Print Assumptions set_of_strings.

Example set_of_strings_case : new_string_set [a; b; a] = [b; a].
Proof. reflexivity. Qed.

(** C41. Reverse keeps the length and reads the list from its end. *)
Theorem reverse_backwards :
  forall s i d, i < length s ->
  length (strs_reverse s) = length s /\
  nth i (strs_reverse s) d = nth (length s - 1 - i) s d.
Proof. exact ExtMain.reverse_backwards. Qed.
Print Assumptions reverse_backwards.

Example reverse_backwards_case : strs_reverse [a; b; c] = [c; b; a].
Proof. reflexivity. Qed.

(** C41. Reversing twice is doing nothing. *)
Theorem reverse_involutive :
  forall s, strs_reverse (strs_reverse s) = s.
Proof. exact ExtMain.reverse_involutive. Qed.
Print Assumptions reverse_involutive.

(** C41. Map applies the function at every index. *)
Theorem map_elementwise :
  forall f s i d, i < length s ->
  length (strs_map f s) = length s /\ nth i (strs_map f s) (f d) = f (nth i s d).
Proof. exact ExtMain.map_elementwise. Qed.
Print Assumptions map_elementwise.

Example map_elementwise_case : strs_map (fun x => x ++ x) [a; b] = [rs "aa"; rs "bb"].
Proof. reflexivity. Qed.

(** C41. Include is membership. *)
Theorem include_iff :
  forall s v, strs_include s v = true <-> In v s.
Proof. exact ExtMain.include_iff. Qed.
Print Assumptions include_iff.

Example include_iff_case : strs_include [a; b] b = true /\ strs_include [a; b] c = false.
Proof. split; reflexivity. Qed.

(** C41. Select keeps, in order, exactly the elements that pass the test. *)
Theorem select_picks :
  forall f s, picks (fun x => f x = true) s (strs_select f s).
Proof. exact ExtMain.select_picks. Qed.
Print Assumptions select_picks.

Example select_picks_case : strs_select (fun x => negb (runes_equal x b)) [c; b; a] = [c; a].
Proof. reflexivity. Qed.

(** C41. Exclude keeps, in order, exactly the elements not given. *)
Theorem exclude_picks :
  forall s vals, picks (fun x => ~ In x vals) s (strs_exclude s vals).
Proof. exact ExtMain.exclude_picks. Qed.
Print Assumptions exclude_picks.

Example exclude_picks_case : strs_exclude [c; b; a; b] [b; rs "x"] = [c; a].
Proof. reflexivity. Qed.

(** C41. Selecting the members of a list and excluding it split the elements between them. *)
Theorem select_exclude_partition :
  forall s vals,
  Permutation s (strs_select (strs_include vals) s ++ strs_exclude s vals).
Proof. exact ExtMain.select_exclude_partition. Qed.
Print Assumptions select_exclude_partition.

Example select_exclude_partition_case :
  strs_select (strs_include [b]) [c; b; a; b] = [b; b] /\ strs_exclude [c; b; a; b] [b] = [c; a].
Proof. split; reflexivity. Qed.

(** C41. Equal is equality of lists. *)
Theorem strings_equal_iff :
  forall s s', strs_equal s s' = true <-> s = s'.
Proof. exact ExtMain.strings_equal_iff. Qed.
Print Assumptions strings_equal_iff.

Example strings_equal_iff_case :
  strs_equal [a; b] [a; b] = true /\ strs_equal [a; b] [b; a] = false /\ strs_equal [a] [a; b] = false.
Proof. repeat split. Qed.

(** C41. Sort gives a sorted permutation. *)
Theorem sort_sorts :
  forall s, Permutation s (strs_sort s) /\ ascending (strs_sort s).
Proof. exact ExtMain.sort_sorts. Qed.
Print Assumptions sort_sorts.

Example sort_sorts_case : strs_sort [c; rs "ab"; a; b] = [a; rs "ab"; b; c].
Proof. reflexivity. Qed.

(** C41. There is only one sorted permutation, so the sorting method does not matter. *)
Theorem sort_unique :
  forall s t, Permutation s t -> ascending t -> t = strs_sort s.
Proof. exact ExtMain.sort_unique. Qed.
Print Assumptions sort_unique.

Example sort_unique_case : Permutation [c; a; b] [a; b; c] /\ ascending [a; b; c].
Proof.
  split; [exact (Permutation_cons_append [a; b] c)|]. repeat constructor.
Qed.

(** C41. ExtractStrings splits its arguments into strings and the rest, both in order. *)
Theorem extract_strings_spec :
  forall args,
  extract_strings args =
  (flat_map (fun a => match a with AString s => [s] | AStrings l => l | _ => [] end) args,
   filter (fun a => match a with AString _ | AStrings _ => false | _ => true end) args).
Proof. exact ExtMain.extract_strings_spec. Qed.
Print Assumptions extract_strings_spec.

Example extract_strings_spec_case :
  extract_strings [AString a; AOther 1; AStrings [b; c]; ASet [a]] = ([a; b; c], [AOther 1; ASet [a]]).
Proof. reflexivity. Qed.

(** C42. However SetLogger calls nest, the logger afterwards is the one before. *)
Theorem logger_restored :
  forall b l, fst (log_run b l) = l.
Proof. exact ExtMain.logger_restored. Qed.
Print Assumptions logger_restored.

Example logger_restored_case :
  log_run (LMessage (LWith 1 (LMessage (LWith 2 (LMessage LDone) LDone)) (LMessage LDone))) 0 = (0, [0; 1; 2; 0]).
Proof. reflexivity. Qed.

(** C42. Each message goes to the logger set by the innermost call still in force. *)
Theorem messages_reach_innermost_logger :
  forall b l, snd (log_run b l) = log_expect b l.
Proof. exact ExtMain.messages_reach_innermost_logger. Qed.
Print Assumptions messages_reach_innermost_logger.
