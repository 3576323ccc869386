(** Model of src/engine/transformation/rule_parsing.c: rules and rule sets as text. Error messages
    (report_error, report_pattern_errcode) are not modelled. Memory is not returned in the model, so the
    clean-up code of the error paths has no counterpart. *)
From Coq Require Import List Ascii String NArith ZArith Bool Lia Arith.
From Verif Require Import M_Base M_StringUtil M_Tree M_Context M_Parser M_Match.
Import ListNotations.
Open Scope nat_scope.
Open Scope res_scope.

(** rule_parsing.c:17-21 *)
Definition COMMENT_PREFIX : cstr := str "#".
Definition RULESET : cstr := str "RULESET".
Definition ARROW : cstr := str "->".
Definition WHERE : cstr := str " WHERE ".
Definition AND : cstr := str " ; ".

Section RuleParsing.
Variable strtod : cstr -> option double.
Variable c : ctx.

(** rule_parsing.c:53-68: [room] is the number of entries left in the buffer (buffer_size minus
    *num_constraints, at least 1). Result: the constraints parsed so far, or [None] for false. *)
Fixpoint constraints_loop (room : nat) (s : cstr) : res (option (list node)) :=
  match room with
  | 0 => Ub                                  (* out_constraints[buffer_size] is written *)
  | S room' =>
    let '(piece, next) :=
      match strstr s AND with
      | Some n => (firstn n s, Some (skipn (n + List.length AND) s))
      | None => (s, None)
      end in
    t <- parse_easy strtod c piece ;;
    match t with
    | None => Ok None
    | Some t =>
      if room' =? 0 then Ok (Some [t])       (* *num_constraints == buffer_size *)
      else match next with
           | None => Ok (Some [t])
           | Some s' =>
             r <- constraints_loop room' s' ;;
             Ok (option_map (cons t) r)
           end
    end
  end.
(** rule_parsing.c:37-76; a null string is [None] *)
Definition parse_constraints (string : option cstr) (buffer_size : nat) : res (option (list node)) :=
  match string with
  | None => Ok (Some [])
  | Some s => constraints_loop buffer_size s
  end.

(** The string at a pointer into a buffer in which NULs have been written *)
Definition text_at (cells : list ascii) (i : nat) : cstr := until_nul (skipn i cells).

(** rule_parsing.c:79-116 *)
Definition parse_pattern (s : cstr) : res (option pattern) :=
  let where_pos := strstr s WHERE in
  let cells := match where_pos with Some w => vset s w NUL | None => s end in
  constrs <- parse_constraints (option_map (fun w => text_at cells (w + List.length WHERE)) where_pos)
               MATCHING_MAX_CONSTRAINTS ;;
  match constrs with
  | None => Ok None
  | Some constrs =>
    p <- parse_easy strtod c (text_at cells 0) ;;
    match p with
    | None => Ok None
    | Some p => match get_pattern p constrs with
                | PatErr _ => Ok None
                | PatOk pat => Ok (Some pat)
                end
    end
  end.

(** rule_parsing.c:118-183 *)
Definition parse_rule (s : cstr) : res (option rule) :=
  let where_pos := strstr s WHERE in
  match strstr s ARROW with
  | None => Ok None
  | Some a =>
    let cells1 := vset s a NUL in
    let cells := match where_pos with Some w => vset cells1 w NUL | None => cells1 end in
    constrs <- parse_constraints (option_map (fun w => text_at cells (w + List.length WHERE)) where_pos)
                 MATCHING_MAX_CONSTRAINTS ;;
    match constrs with
    | None => Ok None
    | Some constrs =>
      left_n <- parse_easy strtod c (text_at cells 0) ;;
      match left_n with
      | None => Ok None
      | Some left_n =>
        right_n <- parse_easy strtod c (text_at cells (a + List.length ARROW)) ;;
        match right_n with
        | None => Ok None
        | Some right_n =>
          match get_pattern left_n constrs with
          | PatErr _ => Ok None
          | PatOk pat => Ok (get_rule pat right_n)
          end
        end
      end
    end
  end.

(** rule_parsing.c:200-204: what is left of a line as getline delivers it. Overwriting the character in
    front of an empty string writes before the buffer. *)
Definition rule_line (raw : list ascii) : res cstr :=
  let s := until_nul raw in
  if List.length s =? 0 then Ub
  else
    let line := firstn (List.length s - 1) s in
    let line := match strstr line COMMENT_PREFIX with Some n => firstn n line | None => line end in
    Ok (skipn (lead_blanks line) line).

(** rule_parsing.c:195-233. [k] is curr_ruleset + 1, [sets] the contents of out_rulesets. The result is
    [None] for -1 (the contents of the rule sets are then of no use), otherwise the number
    returned. *)
Fixpoint rulesets_loop (lines : list (list ascii)) (k : nat) (sets : list (list rule)) : res (option (list (list rule) * nat)) :=
  match lines with
  | [] => Ok (Some (sets, k))
  | raw :: lines' =>
    line <- rule_line raw ;;
    if begins_with RULESET line then rulesets_loop lines' (S k) sets
    else if k =? S (List.length sets) then Ok (Some (sets, pred k))
    else if List.length line =? 0 then rulesets_loop lines' k sets
    else match k with
         | 0 => rulesets_loop lines' k sets
         | S i =>
           match nth_error sets i with
           | None => Ub                              (* &out_rulesets[i] is outside the array *)
           | Some rs =>
             r <- parse_rule line ;;
             match r with
             | None => Ok None
             | Some r => rulesets_loop lines' k (vset sets i (rs ++ [r]))
             end
           end
         end
  end.

(** getline: the lines of a file, each with its newline; the last one may have none. *)
Fixpoint getlines (s : list ascii) : list (list ascii) :=
  match s with
  | [] => []
  | x :: s' =>
    if ceqb x LF then [x] :: getlines s'
    else match getlines s' with
         | [] => [[x]]
         | l :: ls => (x :: l) :: ls
         end
  end.
(** rule_parsing.c:185-239; out_rulesets are the (empty) vectors given by the caller *)
Definition parse_rulesets_from_file (file : list ascii) (out_rulesets : list (list rule)) : res (option (list (list rule) * nat)) :=
  rulesets_loop (getlines file) 0 out_rulesets.
End RuleParsing.
