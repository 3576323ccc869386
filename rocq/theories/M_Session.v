(** Model of the session: src/client/core/arith_context.c and src/client/commands (definition, clear, load,
    evaluation, table; the choice of the command; the processing of scripts). Texts of messages, prompts
    and colours are not modelled; what is shown is recorded as a list of [shown]. *)
From Coq Require Import List Ascii String NArith ZArith Bool Lia Arith.
From Coq.Floats Require Import SpecFloat.
From Verif Require Import M_Base M_StringUtil M_Tree M_Context M_Parser M_Trie M_Tokenizer M_TreeUtil M_Match M_RuleParsing M_ArithCtx M_Double M_Eval M_Simplify.
Import ListNotations.
Open Scope nat_scope.
Open Scope res_scope.

(** The program's global variables: __g_ctx and __g_composite_functions (arith_context.c:14-15),
    __g_propositional_ctx (propositional_context.c:7), the variables of simplification.c:33-38 ([None] if
    not initialized), the history and the random numbers to come. *)
Record session := mkSession {
  ss_ctx : ctx;
  ss_pc : ctx;
  ss_funs : list rule;
  ss_simp : option simp;
  ss_world : world }.
Definition with_ctx (s : session) (c : ctx) : session := mkSession c (ss_pc s) (ss_funs s) (ss_simp s) (ss_world s).
Definition with_funs (s : session) (l : list rule) : session := mkSession (ss_ctx s) (ss_pc s) l (ss_simp s) (ss_world s).
Definition with_simp (s : session) (o : option simp) : session := mkSession (ss_ctx s) (ss_pc s) (ss_funs s) o (ss_world s).
Definition with_world (s : session) (w : world) : session := mkSession (ss_ctx s) (ss_pc s) (ss_funs s) (ss_simp s) w.
Definition with_history (s : session) (h : list double) : session :=
  with_world s (mkWorld h (w_rand (ss_world s))).

(** What a command shows *)
Inductive shown :=
| SError                                              (** a message on stderr *)
| SResult (t : node)                                  (** the result of an evaluation *)
| SRow (i : nat) (x : double) (v : option double)     (** a row of a table; [None]: "Error" *)
| SFold (v : double)                                  (** the result of a fold *)
| SHelp.                                              (** a help text *)

(** How a command ends: the next command can be read ([Did]: with the value returned), or the program has
    called exit() ([Quit]: with EXIT_SUCCESS or not). *)
Inductive cmdres := Did (s : session) (o : list shown) (ok : bool) | Quit (o : list shown) (ok : bool).

(** A step that may crash, stop or not end *)
Definition step (A : Type) := run (res A).
Definition sret {A} (a : A) : step A := Done (Ok a).
Definition sbind {A B} (x : step A) (f : A -> step B) : step B :=
  match x with
  | Done (Ok a) => f a
  | Done Ub => Done Ub
  | Done Halt => Done Halt
  | Forever => Forever
  end.
Definition of_res {A} (x : res A) : step A := Done x.

Section Session.
Variable L : libm.
(** rounds granted to every loop *)
Variable fuel : nat.
Variable strtod : cstr -> option double.
(** what fopen and the functions reading the file deliver for a path; [None]: fopen returns NULL *)
Variable files : cstr -> option (list ascii).

(** ** arith_context.c *)
(** arith_context.c:215-225: vec_get is called with every index below [error_token]. *)
Definition show_error_at_token (tokens : list cstr) (error_token : nat) : res unit :=
  if List.length tokens <? error_token then Ub else Ok tt.

(** arith_context.c:242-254: the tokens and the tree ([None]: false is returned and a message shown).
    Success without a tree leaves an uninitialised pointer. *)
Definition arith_parse_raw (s : session) (input : cstr) : res (list cstr * option node) :=
  '(tokens, o) <- parse_input strtod (ss_ctx s) input ;;
  match o with
  | PTree t => Ok (tokens, Some t)
  | PErr _ i => _ <- show_error_at_token tokens i ;; Ok (tokens, None)
  | PNoTree => Ub
  end.

(** arith_context.c:260-278; [None] is NULL (and a message is shown). The cap SIZE_MAX on the number of
    replacements is modelled as no cap. Rules of composite functions have no constraints, so the null checker is
    not called. *)
Definition arith_simplify (s : session) (tokens : list cstr) (t : node) : step (session * option node) :=
  sbind (of_res (apply_ruleset fuel (fun _ => Ub) (ss_funs s) 0 t)) (fun r =>
  match r with
  | None => Forever
  | Some (t1, _) =>
    sbind (simplify L fuel (ss_ctx s) (ss_pc s) (ss_simp s) (ss_world s) t1) (fun '(w, (t2, e)) =>
    let s1 := with_world s w in
    match e with
    | None => sret (s1, Some t2)
    | Some (_, p) =>
      sbind (of_res (n <- deref t2 p ;; show_error_at_token tokens (get_token_index n))) (fun _ => sret (s1, None))
    end)
  end).

(** arith_context.c:227-237 *)
Definition arith_parse (s : session) (input : cstr) : step (session * option node) :=
  sbind (of_res (arith_parse_raw s input)) (fun '(tokens, o) =>
  match o with
  | None => sret (s, None)
  | Some t => arith_simplify s tokens t
  end).

(** get_op(rule->pattern.pattern): the operator at the root of a rule's pattern *)
Definition rule_op (r : rule) : res operator :=
  match pt_tree (r_pat r) with NOp op _ _ => Ok op | _ => Ub end.

(** arith_context.c:110-122; [k] is the position of the node in the list. The name is freed after the
    operator has been deleted; the memory of names is not modelled. *)
Definition remove_node (s : session) (k : nat) : res session :=
  match nth_error (ss_funs s) k with
  | None => Ub
  | Some r =>
    op <- rule_op r ;;
    '(c, _) <- ctx_delete_op (ss_ctx s) (o_name op) PFunction ;;
    Ok (with_funs (with_ctx s c) (firstn k (ss_funs s) ++ skipn (S k) (ss_funs s)))
  end.

(** arith_context.c:126-137: the position of the first rule for this very operator *)
Fixpoint find_function (function : operator) (rs : list rule) (k : nat) : res (option nat) :=
  match rs with
  | [] => Ok None
  | r :: rs' =>
    op <- rule_op r ;;
    if o_addr op =? o_addr function then Ok (Some k) else find_function function rs' (S k)
  end.
(** arith_context.c:124-141; [None]: false is returned and a message shown *)
Definition remove_composite_function (s : session) (function : operator) : res (option session) :=
  k <- find_function function (ss_funs s) 0 ;;
  match k with
  | Some k => s' <- remove_node s k ;; Ok (Some s')
  | None => Ok None
  end.

(** arith_context.c:143-149; as many rounds as there are functions *)
Fixpoint clear_loop (k : nat) (s : session) : res session :=
  match k with
  | 0 => Ok s
  | S k' => s' <- remove_node s 0 ;; clear_loop k' s'
  end.
Definition clear_composite_functions (s : session) : res session := clear_loop (List.length (ss_funs s)) s.

(** ** cmd_definition.c *)
Definition DEFINITION_OP : cstr := str "=".

Definition is_var (n : node) : bool := match n with NVar _ _ _ => true | _ => false end.

(** cmd_definition.c:30-67: the answer and the left side (list_variables sets the ids of its variables) *)
Definition do_left_checks (left_n : node) : bool * node :=
  match left_n with
  | NOp op cs _ =>
    if placement_eqb (o_place op) PFunction then
      match cs with
      | [] => (true, left_n)
      | _ =>
        if forallb is_var cs then
          match list_variables left_n MAX_MAPPED_VARS with
          | (left', None, _) => (false, left')
          | (left', Some _, count) => (count =? List.length cs, left')
          end
        else (false, left_n)
      end
    else (false, left_n)
  | _ => (false, left_n)
  end.

Definition failed (s : session) : step cmdres := sret (Did s [SError] false).
(** cmd_definition.c:183-188 *)
Definition definition_error (s : session) (name : cstr) : step cmdres :=
  sbind (of_res (ctx_delete_op (ss_ctx s) name PFunction)) (fun '(c, _) => failed (with_ctx s c)).

Definition root_op (n : node) : option operator := match n with NOp op _ _ => Some op | _ => None end.
Definition num_children (n : node) : nat := match n with NOp _ cs _ => List.length cs | _ => 0 end.
Definition set_op (n : node) (op : operator) : node := match n with NOp _ cs t => NOp op cs t | _ => n end.

(** cmd_definition.c:132-163, once the operator has been registered. ctx_add_op may have returned NULL
    ([None]): find_op then dereferences it. A null [right_tree] is not noticed (line 148 looks at
    [left_tree]) and dereferenced by get_rule. *)
Definition define_right (s : session) (name : cstr) (left_tree : node) (new_op : option operator) (right : cstr) : step cmdres :=
  sbind (of_res (arith_parse_raw s right)) (fun '(tokens, o) =>
  match o with
  | None => definition_error s name
  | Some right_raw =>
    match new_op with
    | None => Done Ub
    | Some op =>
      match find_op right_raw op with
      | Some _ => definition_error s name
      | None =>
        sbind (arith_simplify s tokens right_raw) (fun '(s1, right_tree) =>
        match right_tree with
        | None => Done Ub
        | Some right_tree =>
          match get_pattern left_tree [] with
          | PatErr _ => Done Ub
          | PatOk pattern =>
            match get_rule pattern right_tree with
            | None => definition_error s1 name
            | Some r => sret (Did (with_funs s1 (ss_funs s1 ++ [r])) [] true)
            end
          end
        end)
      end
    end
  end).

(** cmd_definition.c:69-189 *)
Definition add_function (s : session) (name left right : cstr) (is_constant : bool) : step cmdres :=
  sbind (of_res (ctx_lookup_op (ss_ctx s) name PFunction)) (fun existing =>
  match existing with
  | Some _ => failed s
  | None =>
    sbind (of_res (ctx_add_op (ss_ctx s)
                     (if is_constant then op_get_constant name else op_get_function name None))) (fun '(c1, added) =>
    let s1 := with_ctx s c1 in
    sbind (of_res (arith_parse_raw s1 left)) (fun '(_, o) =>
    match o with
    | None => definition_error s1 name
    | Some left_raw =>
      match do_left_checks left_raw with
      | (false, _) => definition_error s1 name
      | (true, left_tree) =>
        if is_constant then define_right s1 name left_tree added right
        else
          sbind (of_res (ctx_delete_op (ss_ctx s1) name PFunction)) (fun '(c2, _) =>
          sbind (of_res (ctx_add_op c2 (op_get_function name (Some (num_children left_tree))))) (fun '(c3, added) =>
          define_right (with_ctx s c3) name
            (match added with Some op => set_op left_tree op | None => left_tree end) added right))
      end
    end))
  end).

(** cmd_definition.c:204-226: the tokens that are not blank *)
Definition blank_token (t : cstr) : bool := match t with c :: _ => is_space c | [] => false end.
(** cmd_definition.c:25-28 *)
Definition cmd_definition_check (input : cstr) : bool :=
  match strstr input DEFINITION_OP with Some _ => true | None => false end.
(** cmd_definition.c:194-248 *)
Definition cmd_definition_exec (s : session) (input : cstr) : step cmdres :=
  match strstr input DEFINITION_OP with
  | None => Done Ub
  | Some n =>
    let left := firstn n input in
    let right := skipn (n + List.length DEFINITION_OP) input in
    sbind (of_res (tokenize (fun t => fst (trie_longest_prefix (c_kw (ss_ctx s)) t)) left)) (fun tokens =>
    match filter (fun t => negb (blank_token t)) tokens with
    | [] => failed s
    | name :: others =>
      match name with
      | c :: _ => if is_letter c then add_function s name left right (List.length others =? 0) else failed s
      | [] => failed s
      end
    end)
  end.

(** ** cmd_clear.c *)
Definition CLEAR_COMMAND : cstr := str "clear".
(** cmd_clear.c:13-18 *)
Definition cmd_clear_check (input : cstr) : bool := streqb CLEAR_COMMAND input || begins_with CLEAR_COMMAND input.
(** cmd_clear.c:23-62; the pointer is moved past the command and one more character: there is one, since
    the input is longer than the command *)
Definition cmd_clear_exec (s : session) (input : cstr) : step cmdres :=
  if streqb CLEAR_COMMAND input then
    sbind (of_res (clear_composite_functions s)) (fun s' => sret (Did s' [] true))
  else
    sbind (of_res (ctx_lookup_op (ss_ctx s) (skipn (List.length CLEAR_COMMAND + 1) input) PFunction)) (fun f =>
    match f with
    | None => failed s
    | Some op =>
      sbind (of_res (remove_composite_function s op)) (fun r =>
      match r with
      | Some s' => sret (Did s' [] true)
      | None => failed s
      end)
    end).

(** ** cmd_evaluation.c:22-35 *)
Definition cmd_evaluation_exec (s : session) (input : cstr) : step cmdres :=
  sbind (arith_parse s input) (fun '(s1, o) =>
  match o with
  | None => failed s1
  | Some t =>
    let s2 := match t with
              | NConst v _ => with_history s1 (history_add (w_history (ss_world s1)) v)
              | _ => s1
              end in
    sret (Did s2 [SResult t] true)
  end).

(** ** cmd_table.c *)
Definition TABLE_COMMAND : cstr := str "table ".
Definition FOLD_KEYWORD : cstr := str " fold ".
(** cmd_table.c:22-25 *)
Definition cmd_table_check (input : cstr) : bool := begins_with TABLE_COMMAND input.

(** tree_reduce with arith_op_evaluate: the value ([None] if an error is returned) *)
Definition reduce_value (s : session) (t : node) : step (session * option double) :=
  match tree_reduce (arith_listener L fuel) (Done (Ok (ss_world s))) t with
  | (Done (Ok w), RVal v) => sret (with_world s w, Some v)
  | (Done (Ok w), RFail _ _) => sret (with_world s w, None)
  | (Done Ub, _) => Done Ub
  | (Done Halt, _) => Done Halt
  | (Forever, _) => Forever
  end.
(** arith_evaluation.c:381-386: 0 in case of an error *)
Definition evaluate (s : session) (t : node) : step (session * double) :=
  sbind (reduce_value s t) (fun '(s', v) => sret (s', match v with Some x => x | None => d0 end)).

(** The fold expression with its two variables replaced (cmd_table.c:186-190) *)
Definition fold_tree (e : node) (x y : double) : node :=
  fst (replace_variable_nodes (fst (replace_variable_nodes (tree_copy e) (NConst x 0) (str "x"))) (NConst y 0) (str "y")).

(** cmd_table.c:168-206. [var] is the variable of the expression; if there is none, the C code passes an
    uninitialised pointer that is not used. [fold] is the fold expression. *)
Fixpoint table_loop (rounds : nat) (s : session) (expr : node) (var : cstr) (fold : option node)
    (i : nat) (start_val end_val step_val fold_val : double) : step (session * list shown * double) :=
  match rounds with
  | 0 => Forever
  | S k =>
    if (if dgtb step_val d0 then dleb start_val end_val else dgeb start_val end_val) then
      sbind (reduce_value s (fst (replace_variable_nodes (tree_copy expr) (NConst start_val 0) var))) (fun '(s1, v) =>
      sbind (match v, fold with
             | Some result, Some fe => evaluate s1 (fold_tree fe fold_val result)
             | _, _ => sret (s1, fold_val)
             end) (fun '(s2, fold_val') =>
      sbind (table_loop k s2 expr var fold (S i) (dadd start_val step_val) end_val step_val fold_val')
        (fun '(s3, rows, f) => sret (s3, SRow i start_val v :: rows, f))))
    else sret (s, [], fold_val)
  end.

(** cmd_table.c:141-146 *)
Definition adjust_step (start_val end_val step_val : double) : double :=
  if (dltb start_val end_val && dltb step_val d0) || (dgtb start_val end_val && dgtb step_val d0)
  then dmul step_val (dneg d1) else step_val.

(** cmd_table.c:49-52: strip is called on a pointer into [input]; the cells in front of the first argument
    are those of the command, in front of the others stands the NUL written by str_split. *)
Fixpoint strip_all (pre : list ascii) (args : list cstr) : res (list cstr) :=
  match args with
  | [] => Ok []
  | a :: rest => a' <- strip pre a ;; rest' <- strip_all [NUL] rest ;; Ok (a' :: rest')
  end.

(** an expression with no variable (arith_parse, then check_if_constant); [None]: goto exit *)
Definition no_variables (t : node) : bool := count_all_variable_nodes t =? 0.

(** cmd_table.c:167-218 *)
Definition table_run (s : session) (expr : node) (vars : list cstr) (fold : option node)
    (start_val end_val step_val fold_val : double) : step cmdres :=
  let st := adjust_step start_val end_val step_val in
  sbind (table_loop fuel s expr (match vars with v :: _ => v | [] => [] end) fold 1 start_val end_val st fold_val)
    (fun '(s1, rows, f) =>
     match fold with
     | None => sret (Did s1 rows true)
     | Some _ => sret (Did (with_history s1 (history_add (w_history (ss_world s1)) f)) (rows ++ [SFold f]) true)
     end).

(** cmd_table.c:115-139 and the rest *)
Definition table_fold (s : session) (expr : node) (vars : list cstr) (more : list cstr)
    (start_val end_val step_val : double) : step cmdres :=
  match more with
  | fold_text :: init_text :: _ =>
    sbind (arith_parse s fold_text) (fun '(s1, o) =>
    match o with
    | None => failed s1
    | Some fold_expr =>
      sbind (arith_parse s1 init_text) (fun '(s2, o) =>
      match o with
      | None => failed s2
      | Some fold_init =>
        if count_all_variable_nodes fold_expr
           =? fst (get_variable_nodes fold_expr (str "x") 0 0) + fst (get_variable_nodes fold_expr (str "y") 0 0) then
          if no_variables fold_init then
            sbind (evaluate s2 fold_init) (fun '(s3, fold_val) =>
            table_run s3 expr vars (Some fold_expr) start_val end_val step_val fold_val)
          else failed s2
        else failed s2
      end)
    end)
  | _ => table_run s expr vars None start_val end_val step_val d0
  end.

(** cmd_table.c:91-139: the three parameters are parsed, checked and evaluated in this order *)
Definition table_params (s : session) (expr : node) (vars : list cstr) (a1 a2 a3 : cstr) (more : list cstr) : step cmdres :=
  sbind (arith_parse s a1) (fun '(s1, o1) =>
  match o1 with
  | None => failed s1
  | Some start =>
    sbind (arith_parse s1 a2) (fun '(s2, o2) =>
    match o2 with
    | None => failed s2
    | Some stop =>
      sbind (arith_parse s2 a3) (fun '(s3, o3) =>
      match o3 with
      | None => failed s3
      | Some step =>
        if no_variables start && no_variables stop && no_variables step then
          sbind (evaluate s3 start) (fun '(s4, start_val) =>
          sbind (evaluate s4 stop) (fun '(s5, end_val) =>
          sbind (evaluate s5 step) (fun '(s6, step_val) =>
          if deqb step_val d0 then failed s6
          else table_fold s6 expr vars more start_val end_val step_val)))
        else failed s3
      end)
    end)
  end).

(** cmd_table.c:37-228; the printing of the header and of the cells is in M_Table *)
Definition cmd_table_exec (s : session) (input : cstr) : step cmdres :=
  let parts := str_split (skipn (List.length TABLE_COMMAND) input) [str ";"; str ";"; str ";"; FOLD_KEYWORD; str ";"] in
  if (List.length parts =? 4) || (List.length parts =? 6) then
    sbind (of_res (strip_all (rev TABLE_COMMAND) parts)) (fun args =>
    match args with
    | a0 :: a1 :: a2 :: a3 :: more =>
      sbind (of_res (arith_parse_raw s a0)) (fun '(tokens, o) =>
      match o with
      | None => failed s
      | Some raw =>
        sbind (arith_simplify s tokens raw) (fun '(s1, o) =>
        match o with
        | None => failed s1
        | Some expr0 =>
          match list_variables expr0 1 with
          | (_, None, _) => failed s1
          | (expr, Some vars, _) => table_params s1 expr vars a1 a2 a3 more
          end
        end)
      end)
    | _ => Done Ub
    end)
  else failed s.

(** ** cmd_help.c:120-126, the check; what is printed is modelled in M_Help.v *)
Definition cmd_help_check (input : cstr) : bool :=
  streqb input (str "help") || streqb input (str "help operators") || streqb input (str "license").

(** ** cmd_load.c and commands.c *)
Definition LOAD_COMMAND : cstr := str "load ".
Definition LOAD_SIMPLIFICATION : cstr := str "load simplification ".
Definition QUIT_COMMAND : cstr := str "quit".
(** cmd_load.c:15-18 *)
Definition cmd_load_check (input : cstr) : bool := begins_with LOAD_COMMAND input.

(** cmd_load.c:25-40; unload_simplification makes the module uninitialized. A malformed file is reported
    by init_simplification, but the command returns true. *)
Definition load_simplification (s : session) (path : cstr) : step cmdres :=
  let s0 := with_simp s None in
  sbind (of_res (init_simplification strtod (ss_ctx s) (ss_pc s) (files path))) (fun r =>
  match r with
  | IUnreadable => failed s0
  | IMalformed => sret (Did s0 [SError] true)
  | ILoaded sm _ => sret (Did (with_simp s (Some sm)) [] true)
  end).

(** console_util.c:61-80: a line as the commands get it: the last character is overwritten (the newline, or
    the last character of a last line without newline). A line that starts with NUL makes the write go before the
    buffer. *)
Definition input_line (raw : list ascii) : res cstr :=
  let s := until_nul raw in
  if List.length s =? 0 then Ub else Ok (firstn (List.length s - 1) s).

(** commands.c:103 *)
Definition ignored (line : cstr) : bool :=
  match line with [] => true | c :: _ => ceqb c "#"%char end.

(** commands.c:92-115 for the lines left in the file, given exec_command; [ok] is the variable res *)
Fixpoint process_lines (exec : session -> cstr -> step cmdres) (s : session) (lines : list (list ascii)) (ok : bool) : step cmdres :=
  match lines with
  | [] => sret (Did s [] ok)
  | raw :: rest =>
    sbind (of_res (input_line raw)) (fun line =>
    if streqb line QUIT_COMMAND then sret (Quit [] ok)
    else if ignored line then process_lines exec s rest ok
    else
      sbind (exec s line) (fun r =>
      match r with
      | Quit o b => sret (Quit o b)
      | Did s1 o b =>
        sbind (process_lines exec s1 rest (ok && b)) (fun r' =>
        match r' with
        | Did s2 o2 b2 => sret (Did s2 (o ++ o2) b2)
        | Quit o2 b2 => sret (Quit (o ++ o2) b2)
        end)
      end))
  end.

(** cmd_load.c:23-59; [run] is process_input *)
Definition cmd_load_exec (run : session -> list ascii -> step cmdres) (s : session) (input : cstr) : step cmdres :=
  if begins_with LOAD_SIMPLIFICATION input then
    load_simplification s (skipn (List.length LOAD_SIMPLIFICATION) input)
  else
    match files (skipn (List.length LOAD_COMMAND) input) with
    | None => failed s
    | Some content =>
      sbind (run s content) (fun r =>
      match r with
      | Did s' o _ => sret (Did s' o true)
      | Quit o b => sret (Quit o b)
      end)
    end.

(** commands.c:42-50,121-132; [depth] bounds the nesting of scripts that load each other, which in C is
    bounded by the stack and the number of open files only *)
Fixpoint exec_command (depth : nat) (s : session) (input : cstr) : step cmdres :=
  match depth with
  | 0 => Forever
  | S d =>
    if cmd_help_check input then sret (Did s [SHelp] true)
    else if cmd_table_check input then cmd_table_exec s input
    else if cmd_definition_check input then cmd_definition_exec s input
    else if cmd_clear_check input then cmd_clear_exec s input
    else if cmd_load_check input then
      cmd_load_exec (fun s' content => process_lines (exec_command d) s' (getlines content) true) s input
    else cmd_evaluation_exec s input
  end.

(** commands.c:92-115 *)
Definition process_input (depth : nat) (s : session) (content : list ascii) : step cmdres :=
  process_lines (exec_command depth) s (getlines content) true.

(** commands.c:68-85 compiled with INSTALL_PATH; [path] is the path of the installed rule set. A missing or
    malformed file leaves the module uninitialized. *)
Definition init_commands (path : cstr) (rand : list Z) : res session :=
  g <- get_arith_ctx ;;
  pc <- init_propositional_ctx ;;
  r <- init_simplification strtod g pc (files path) ;;
  Ok (mkSession g pc [] (match r with ILoaded sm _ => Some sm | _ => None end) (mkWorld [] rand)).
End Session.
