(** Specification vocabulary for rules given as text: C37, C59. *)
From Coq Require Import List Ascii String NArith ZArith Bool Lia Arith.
From Verif Require Import M_Base M_Tree M_Context M_Parser S_Util.
Import ListNotations.
Open Scope nat_scope.

(** [s] consists of the pieces [ps] with delimiter [d] between them, cut from left to right. *)
Inductive pieces (d : cstr) : cstr -> list cstr -> Prop :=
| pc_last : forall s, does_not_occur d s -> pieces d s [s]
| pc_more : forall s a b ps, cut_at_first d s a b -> pieces d b ps -> pieces d s (a :: ps).

(** The three forms of a rule: "L->R", "L->R WHERE c1 ; ... ; cn" and "L WHERE c1 ; ... ; cn->R". *)
Inductive rule_reads (s : cstr) : cstr -> cstr -> list cstr -> Prop :=
| rr_plain : forall L R, does_not_occur (str " WHERE ") s -> cut_at_first (str "->") s L R -> rule_reads s L R []
| rr_after : forall L R C cs, cut_at_first (str "->") s L (R ++ str " WHERE " ++ C) ->
    cut_at_first (str " WHERE ") s (L ++ str "->" ++ R) C -> pieces (str " ; ") C cs -> rule_reads s L R cs
| rr_before : forall L R C cs, cut_at_first (str "->") s (L ++ str " WHERE " ++ C) R ->
    cut_at_first (str " WHERE ") s L (C ++ str "->" ++ R) -> pieces (str " ; ") C cs -> rule_reads s L R cs.

(** The text [s] is the expression [t]. *)
Definition denotes (strtod : cstr -> option double) (c : ctx) (s : cstr) (t : node) : Prop :=
  parse_easy strtod c s = Ok (Some t).
Definition no_expression (strtod : cstr -> option double) (c : ctx) (s : cstr) : Prop :=
  parse_easy strtod c s = Ok None.

(** ** Rule files *)
(** What counts of a line: neither leading blanks nor anything from '#' on *)
Fixpoint before_comment (l : cstr) : cstr :=
  match l with
  | [] => []
  | x :: l' => if Ascii.eqb x "#"%char then [] else x :: before_comment l'
  end.
Fixpoint drop_blanks (l : cstr) : cstr :=
  match l with
  | [] => []
  | x :: l' => if Ascii.eqb x " "%char then drop_blanks l' else l
  end.
Definition meat (l : cstr) : cstr := drop_blanks (before_comment l).

Definition is_header (l : cstr) : Prop := starts_with (str "RULESET") (meat l).
Definition plain_line (l : cstr) : Prop := ~ In NUL l /\ ~ In (ascii_of_nat 10) l.

(** A file: every line is followed by a newline. *)
Definition file_of (ls : list cstr) : cstr := flat_map (fun l => l ++ [ascii_of_nat 10]) ls.

(** The lines of one section: a header and lines that are no headers *)
Definition section := (cstr * list cstr)%type.
Definition section_lines (s : section) : list cstr := fst s :: snd s.
Definition well_formed (s : section) : Prop := is_header (fst s) /\ Forall (fun l => ~ is_header l) (snd s).
(** The rule texts among the lines of a section *)
Definition rule_texts (ls : list cstr) : list cstr :=
  filter (fun x => match x with [] => false | _ => true end) (map meat ls).
