(** Model of the messages about faulty expressions: report_error_at (src/util/console_util.c) and the error paths of
    src/client/core/arith_context.c. Columns are counted in bytes, as the code does. int arithmetic is modelled on natural
    numbers (lines are shorter than INT_MAX). *)
From Coq Require Import List Ascii String NArith ZArith Bool Lia Arith.
From Verif Require Import M_Base M_StringUtil M_Tree M_Context M_Parser M_TreeUtil M_Match M_Double M_Eval M_Simplify M_Session.
Import ListNotations.
Open Scope list_scope.
Open Scope nat_scope.
Open Scope res_scope.

Definition BLANK : ascii := " "%char.

(** console_util.c:165-204: what is written to stderr; [msg] is the formatted message. [pos - msg_len > 0] is an int
    comparison: [List.length msg < pos]. The loops print [length - 1] characters (none for length 0). *)
Definition report_error_at (interactive : bool) (pos length : nat) (msg : cstr) : list ascii :=
  (if interactive then
     if List.length msg <? pos
     then repeat BLANK (pos - List.length msg - 1) ++ msg ++ [BLANK] ++ repeat "~"%char (length - 1) ++ ["^"%char]
     else repeat BLANK pos ++ ["^"%char] ++ repeat "~"%char (length - 1) ++ [BLANK] ++ msg
   else msg)
  ++ [ascii_of_nat 10].

(** arith_context.c:156-183 *)
Definition perr_to_string (e : perr) : cstr :=
  str (match e with
       | PERR_SUCCESS => "Success"
       | PERR_EXPECTED_INFIX => "Expected infix or postfix operator"
       | PERR_UNEXPECTED_INFIX => "Unexpected infix or postfix operator"
       | PERR_EXCESS_OPENING_PAREN => "Missing closing parenthesis"
       | PERR_UNEXPECTED_CLOSING_PAREN => "Unexpected closing parenthesis"
       | PERR_UNEXPECTED_DELIMITER => "Unexpected delimiter"
       | PERR_FUNCTION_WRONG_ARITY => "Wrong number of operands of function"
       | PERR_UNEXPECTED_END_OF_EXPR => "Unexpected end of expression"
       | PERR_EXPECTED_PARAM_LIST => "Expected an opening parenthesis"
       | PERR_UNEXPECTED_CHARACTER => "Unexpected character"
       | _ => "Unknown Error"
       end)%string.

(** arith_context.c:185-210 *)
Definition listenererr_to_str (code : Z) : cstr :=
  str (if code =? 0 then "No error"
       else if code =? LISTENERERR_VARIABLE_ENCOUNTERED then "Expression not constant"
       else if code =? LISTENERERR_HISTORY_NOT_SET then "This part of the history is not set yet"
       else if code =? LISTENERERR_IMPOSSIBLE_DERIV then "Expression not continuously differentiable"
       else if code =? LISTENERERR_MALFORMED_DERIV_A then "More than one variable in expr'"
       else if code =? LISTENERERR_MALFORMED_DERIV_B then "Second operand of function 'deriv' must be variable"
       else if code =? LISTENERERR_UNKNOWN_OP then "No evaluation of operator possible"
       else if code =? LISTENERERR_DIVISION_BY_ZERO then "Division by zero"
       else if code =? LISTENERERR_COMPLEX_SOLUTION then "Complex solution"
       else "Unknown error")%Z%string.

(** arith_context.c:215-225; [M_Session.show_error_at_token] is the same without the text *)
Definition error_text (interactive : bool) (tokens : list cstr) (error_token : nat) (message : cstr) (prompt_len : nat) : res (list ascii) :=
  if List.length tokens <? error_token then Ub
  else
    let error_pos := fold_left (fun p t => p + List.length t) (firstn error_token tokens) prompt_len in
    let error_length := match nth_error tokens error_token with Some t => List.length t | None => 1 end in
    Ok (report_error_at interactive error_pos error_length (str "Error: " ++ message)).

Section Texts.
Variable L : libm.
Variable fuel : nat.
Variable strtod : cstr -> option double.
Variable interactive : bool.

(** arith_context.c:242-254, with the text written in case of an error *)
Definition parse_raw_text (s : session) (prompt_len : nat) (input : cstr) : res (list cstr * (node + list ascii)) :=
  '(tokens, o) <- parse_input strtod (ss_ctx s) input ;;
  match o with
  | PTree t => Ok (tokens, inl t)
  | PErr e i => out <- error_text interactive tokens i (perr_to_string e) prompt_len ;; Ok (tokens, inr out)
  | PNoTree => Ub
  end.

(** arith_context.c:260-279 *)
Definition simplify_text (s : session) (tokens : list cstr) (t : node) (prompt_len : nat) : step (session * (node + list ascii)) :=
  sbind (of_res (apply_ruleset fuel (fun _ => Ub) (ss_funs s) 0 t)) (fun r =>
  match r with
  | None => Forever
  | Some (t1, _) =>
    sbind (simplify L fuel (ss_ctx s) (ss_pc s) (ss_simp s) (ss_world s) t1) (fun '(w, (t2, e)) =>
    let s1 := with_world s w in
    match e with
    | None => sret (s1, inl t2)
    | Some (code, p) =>
      sbind (of_res (n <- deref t2 p ;; error_text interactive tokens (get_token_index n) (listenererr_to_str code) prompt_len)) (fun out => sret (s1, inr out))
    end)
  end).

(** arith_context.c:227-237 *)
Definition parse_text (s : session) (prompt_len : nat) (input : cstr) : step (session * (node + list ascii)) :=
  sbind (of_res (parse_raw_text s prompt_len input)) (fun '(tokens, o) =>
  match o with
  | inr out => sret (s, inr out)
  | inl t => simplify_text s tokens t prompt_len
  end).
End Texts.

(** The messages that commands pass to report_error_at: cmd_definition.c:16-18,34,46,56,61,232,240 (with
    MAX_MAPPED_VARS 10, matching.h:5), cmd_clear.c:58, cmd_table.c:31,87,111,130-131 *)
Definition command_messages : list cstr :=
  map str
  [ "Error: Not a function or constant";
    "Error: Function arguments must be variables";
    "Too many function parameters. Maximum is 10.";
    "Error: Function arguments must be distinct variables";
    "Error: Unknown function or constant";
    "Error: Not constant" ]%string
  ++ map (fun s => str s ++ [ascii_of_nat 10])
  [ "Error: More than one variable";
    "Error: 'step' must not be zero";
    "Error: Fold expression must not contain any variables except 'x' and 'y'" ]%string.
