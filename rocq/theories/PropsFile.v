(** Which files a run of ParseProgram depends on.  Definitions used in the statements are in ExtSpec,
    IdSpec and TermUnitSpec (and the model in Units); proofs in FileMain. *)
From Coq Require Import String List NArith Bool Arith Lia Permutation.
From Verif Require Import Runes UnicodeFacts Token Tokenizer Ast Heap MapSpec Prog Parser Units UnitSpec Ext ExtSpec SortMain LexSpec LexMain
  IdSpec IdMain TermUnitSpec FileMain ParseExamples.
Import ListNotations.

(** The examples use the Latin-1 tables. *)
#[local] Existing Instance latin1 | 100.
#[local] Existing Instance latin1_ok | 100.

(** A folder with a program, two units in it, and one that is used without a path *)
Definition disk (other : option (list rune)) (path : gostring) : option (list rune) :=
  if runes_equal path (rs "p.dpr") then Some (rs
    "program p; uses SysUtils, A in 'a.pas', B in 'sub\b.pas'; var own: TB; begin own := 1; end.") else
  if runes_equal path (rs "a.pas") then Some (rs "unit A; interface uses B; type TA = TB; implementation uses SysUtils; end.") else
  if runes_equal path (rs "sub/b.pas") then Some (rs "unit B; interface type TB = Integer; implementation end.") else other.

(** C57. For a text of a program there is a list of paths, and whatever the outcome, be it an error, ParseProgram
ends the same with any two file systems that agree on these paths and on the program.  When it succeeds
they are the paths of the units of the program, no more and no less, and each of these files is there. *)
Theorem program_reads_only_its_files {U : Unicode} {UOK : UnicodeOk U} :
  forall n sep path text, exists paths,
  (forall files files' order topo, files path = Some text -> files' path = Some text ->
     (forall q, In q paths -> files' q = files q) ->
     parse_program (recs_at n) files' sep order topo path = parse_program (recs_at n) files sep order topo path) /\
  (forall files order topo pa pc h, iterates order -> lists_once topo -> files path = Some text ->
     parse_program (recs_at n) files sep order topo path = ROk (pa, pc) h ->
     (forall q, In q paths <-> exists o, In o (h_units h) /\ un_path o = q) /\
     (forall q, In q paths -> files q <> None)).
Proof. exact FileMain.program_reads_only_its_files. Qed.
Print Assumptions program_reads_only_its_files.

Example program_reads_only_its_files_example :
  iterates (fun m => m) /\ lists_once some_toposort /\
  match parse_program (recs_at 60) (disk None) 47%N (fun m => m) some_toposort (rs "p.dpr") with
  | ROk (pa, pc) h => map un_path (h_units h) = map rs ["a.pas"; "sub/b.pas"]%string
  | _ => False
  end.
Proof. split; [intros m; apply Permutation_refl|]. split; [apply some_toposort_lists_once|]. vm_compute. reflexivity. Qed.

(** C57. These paths are among those that the uses clause of the program names: the strings behind IN without their
quotes, with the separator for backslashes.  So ParseProgram ends the same with any two file systems
that agree on these and on the program, whether it succeeds or not. *)
Theorem program_reads_the_files_it_names {U : Unicode} {UOK : UnicodeOk U} :
  forall n files files' sep order topo path text, files path = Some text -> files' path = Some text ->
  (forall l q, TermUnitSpec.program_uses text l -> In q (TermUnitSpec.unit_files sep l) -> files' q = files q) ->
  parse_program (recs_at n) files' sep order topo path = parse_program (recs_at n) files sep order topo path.
Proof. exact FileMain.program_reads_the_files_it_names. Qed.
Print Assumptions program_reads_the_files_it_names.

Example program_reads_the_files_it_names_example :
  exists l, program_uses (rs "program p; uses SysUtils, A in 'a.pas', B in 'sub\b.pas'; begin end.") l /\
            unit_files 47%N l = map rs ["a.pas"; "sub/b.pas"]%string.
Proof.
  exists [(rs "SysUtils", None); (rs "A", Some (rs "'a.pas'")); (rs "B", Some (rs "'sub\b.pas'"))].
  split; [|vm_compute; reflexivity]. exists (rs "p").
  destruct (read_n 14 (new_tokenizer (rs "program p; uses SysUtils, A in 'a.pas', B in 'sub\b.pas'; begin end.") false false)) as [[ts k]|] eqn:E;
    [|vm_compute in E; discriminate E].
  exists ts, k. split; [eapply read_n_reads; exact E|]. vm_compute in E. injection E as <- _. vm_compute. reflexivity.
Qed.

(** C57. When ParseProgram succeeds, it ends the same with any file system that has the same program and the
same units; what is in other files, or whether they are there, plays no part. *)
Theorem other_files_do_not_matter {U : Unicode} {UOK : UnicodeOk U} :
  forall n files files' sep order topo path pa pc h, iterates order -> lists_once topo ->
  parse_program (recs_at n) files sep order topo path = ROk (pa, pc) h ->
  files' path = files path -> (forall o, In o (h_units h) -> files' (un_path o) = files (un_path o)) ->
  parse_program (recs_at n) files' sep order topo path = ROk (pa, pc) h.
Proof. exact FileMain.other_files_do_not_matter. Qed.
Print Assumptions other_files_do_not_matter.

Example other_files_do_not_matter_example :
  match parse_program (recs_at 60) (disk None) 47%N (fun m => m) some_toposort (rs "p.dpr") with
  | ROk (pa, pc) h =>
      forall text, parse_program (recs_at 60) (disk (Some text)) 47%N (fun m => m) some_toposort (rs "p.dpr") = ROk (pa, pc) h
  | _ => False
  end.
Proof.
  destruct (parse_program (recs_at 60) (disk None) 47%N (fun m => m) some_toposort (rs "p.dpr")) as [[pa pc] h| | | |] eqn:E;
    [|vm_compute in E; discriminate E..].
  intros text. eapply other_files_do_not_matter; [intros m; apply Permutation_refl|apply some_toposort_lists_once|exact E|reflexivity|].
  vm_compute in E. injection E as <- <- <-. intros o [<-|[<-|[]]]; reflexivity.
Qed.

(** C57. When ParseProgram succeeds, the units it has are those of the files that the uses clause of the program names behind
IN: each of these files has been read into a unit, and every unit comes from one of them. *)
Theorem units_come_from_the_files_named {U : Unicode} {UOK : UnicodeOk U} :
  forall n files sep order topo path text pa pc h, iterates order -> lists_once topo -> files path = Some text ->
  parse_program (recs_at n) files sep order topo path = ROk (pa, pc) h ->
  (forall l, TermUnitSpec.program_uses text l ->
     forall q, In q (TermUnitSpec.unit_files sep l) <-> exists o, In o (h_units h) /\ un_path o = q) /\
  (forall o, In o (h_units h) -> exists l, TermUnitSpec.program_uses text l /\ In (un_path o) (TermUnitSpec.unit_files sep l)).
Proof. exact FileMain.units_come_from_the_files_named. Qed.
Print Assumptions units_come_from_the_files_named.

Example units_come_from_the_files_named_example :
  match parse_program (recs_at 60) (disk None) 47%N (fun m => m) some_toposort (rs "p.dpr") with
  | ROk (pa, pc) h =>
      forall l text, disk None (rs "p.dpr") = Some text -> program_uses text l -> In (rs "sub/b.pas") (unit_files 47%N l)
  | _ => False
  end.
Proof.
  destruct (parse_program (recs_at 60) (disk None) 47%N (fun m => m) some_toposort (rs "p.dpr")) as [[pa pc] h| | | |] eqn:E;
    [|vm_compute in E; discriminate E..].
  intros l text F P. destruct (units_come_from_the_files_named 60 (disk None) 47%N (fun m => m) some_toposort (rs "p.dpr") text pa pc h
    (fun m => Permutation_refl m) some_toposort_lists_once F E) as [A _]. apply (A l P).
  vm_compute in E. injection E as <- <- <-. eexists. split; [right; left; reflexivity|reflexivity].
Qed.
(** An item of the uses clause gets the unit of its name, whatever file that is in; the path behind IN
    only says which files to read. *)
Theorem items_get_the_unit_of_their_file_refuted :
  let files p :=
    if runes_equal p (rs "p.dpr") then Some (rs "program p; uses A in 'b.pas', B in 'a.pas'; begin x := 1; end.") else
    if runes_equal p (rs "a.pas") then Some (rs "unit A; interface implementation end.") else
    if runes_equal p (rs "b.pas") then Some (rs "unit B; interface implementation end.") else None in
  exists pa pc h o k u,
  parse_program (recs_at 60) files 47%N (fun m => m) some_toposort (rs "p.dpr") = ROk (pa, pc) h /\
  In o (h_uses h) /\ u_unit o = Some k /\ nth_error (h_units h) k = Some u /\
  effective_path 47%N o = rs "b.pas" /\ un_path u = rs "a.pas".
Proof.
  intros files. destruct (parse_program (recs_at 60) files 47%N (fun m => m) some_toposort (rs "p.dpr")) as [[pa pc] h| | | |] eqn:E;
    [|vm_compute in E; discriminate E..].
  vm_compute in E. injection E as <- <- <-. do 6 eexists. split; [reflexivity|]. split; [left; reflexivity|].
  split; [reflexivity|]. split; [reflexivity|]. split; vm_compute; reflexivity.
Qed.
Print Assumptions items_get_the_unit_of_their_file_refuted.
