(** Model of src/client/commands/cmd_help.c: what `help`, `help operators` and `license` print. *)
From Coq Require Import List Ascii String NArith ZArith Bool Lia Arith.
From Coq.Floats Require Import SpecFloat.
From Verif Require Import M_Base M_StringUtil M_LinkedList M_Tree M_Context M_Match M_TreeUtil M_Printer M_Printf M_Table M_Double M_Eval M_Session M_TableOut.
Import ListNotations.
Open Scope string_scope.
Open Scope list_scope.
Open Scope nat_scope.
Open Scope res_scope.

(** What is printed, in order: texts and the lines of tables *)
Inductive printed :=
| PText (s : cstr)
| PTable (ls : list (list seg)).

(** cmd_help.c:22-38 and version.h:1-9 (without DEBUG) *)
Definition LICENSE : cstr :=
  flat_map (fun l => str l ++ [LF]) [
    "ccalc 1.6.5 Copyright (C) 2018-2021 Philipp Hochmann, phil.hochmann@gmail.com";
    "Scientific calculator in which you can define new functions and constants";
    "https://github.com/PhilippHochmann/ccalc";
    "";
    "This program is free software: you can redistribute it and/or modify";
    "it under the terms of the GNU General Public License as published by";
    "the Free Software Foundation, either version 3 of the License, or";
    "(at your option) any later version.";
    "";
    "This program is distributed in the hope that it will be useful,";
    "but WITHOUT ANY WARRANTY; without even the implied warranty of";
    "MERCHANTABILITY or FITNESS FOR A PARTICULAR PURPOSE.  See the";
    "GNU General Public License for more details.";
    "";
    "You should have received a copy of the GNU General Public License";
    "along with this program.  If not, see <https://www.gnu.org/licenses/>."].
(** cmd_help.c:40-50: 9 rows are declared and 7 given; the others are null pointers. A null text is an empty cell
    (table.c:141-155). *)
Definition NUM_COMMANDS : nat := 9.
Definition COMMAND_TABLE : list (option cstr * option cstr) :=
  [(Some (str "<func|const> = <after>"), Some (str "Adds function or constant"));
   (Some (str "table <expr> ; <from> ; <to> ; <step>  " ++ [LF] ++ str "   [fold <expr> ; <init>]"), Some (str "Prints table of values"));
   (Some (str "load [simplification] <path>"), Some (str "Executes commands or loads simplification ruleset in file"));
   (Some (str "clear [<func>]"), Some (str "Clears all or one function or constant"));
   (Some (str "help [operators]"), Some (str "Shows this message or a verbose list of all operators"));
   (Some (str "license"), Some (str "Shows information about ccalc's license"));
   (Some (str "quit"), Some (str "Closes application"));
   (None, None); (None, None)].
(** cmd_help.c:52-111 *)
Definition OP_DESCRIPTIONS : list cstr := map str [
  " Identity to parse rest of expression as if put in parentheses ";
  " History operator ";
  " Derivative shorthand ";
  " Derivative of expression with respect to variable ";
  " Addition ";
  " Subtraction ";
  " Multiplication ";
  " Division ";
  " Exponentiation ";
  " Binomial coefficient ";
  " Modulo operator ";
  " Identity ";
  " Negation ";
  " Factorial ";
  " Division by 100 ";
  " Natural exponential function ";
  " nth root of x ";
  " Square root ";
  " Logarithm to base n ";
  " Natural logarithm ";
  " Binary logarithm ";
  " Logarithm to base 10 ";
  " Sine ";
  " Cosine ";
  " Tangent ";
  " Inverse sine ";
  " Inverse cosine ";
  " Inverse tangens ";
  " Hyperbolic sine ";
  " Hyperbolic cosine ";
  " Hyperbolic tangent ";
  " Inverse hyperbolic sine ";
  " Inverse hyperbolic cosine ";
  " Inverse hyperbolic tangent ";
  " Maximum ";
  " Minimum ";
  " Absolute value ";
  " Round up to nearest integer ";
  " Round down to nearest integer ";
  " Round to nearest integer ";
  " Round towards zero to nearest integer ";
  " Fractional part of x ";
  " Sign of x (-1, 0, 1) ";
  " Sum of all operands ";
  " Product of all operands ";
  " Arithmetic mean of all operands ";
  " Greatest common divisor ";
  " Least common multiple ";
  " Random integer between min and max (exclusive) ";
  " Fibonacci sequence ";
  " Gamma function ";
  " Variance of a population ";
  " Archimedes' constant ";
  " Euler's number ";
  " Golden ratio ";
  " Speed of light [m/s] ";
  " Speed of sound in air at 20 °C [m/s] ";
  " Last result "].
(** cmd_help.c:113-118 *)
Definition PSEUDO_IND : nat := 0.
Definition BASIC_IND : nat := 4.
Definition TRIG_IND : nat := 22.
Definition MISC_IND : nat := 34.
Definition CONST_IND : nat := 52.
Definition LAST_IND : nat := 58.
(** cmd_help.c:20 *)
Definition TTY_WIDTH : Z := 80.
(** tree_to_string.h:5 *)
Definition OP_COLOR : cstr := ESC :: str "[47m" ++ ESC :: str "[22;30m".

(** cmd_help.c:132-172: the text of the second printf; its length is what printf returns *)
Definition op_text (op : operator) : cstr :=
  match o_place op with
  | PPrefix => if negb (arity_zero (o_arity op)) then o_name op ++ str "x" else o_name op
  | PInfix => if is_letter (hd NUL (o_name op)) then str "x " ++ o_name op ++ str " y" else str "x" ++ o_name op ++ str "y"
  | PPostfix => str "x" ++ o_name op
  | PFunction =>
    match o_arity op with
    | Some 0 => o_name op
    | None => o_name op ++ str "(*)"
    | Some n => o_name op ++ str "(" ++ printf_zu n ++ str ")"
    end
  end.
(** cmd_help.c:128-176 *)
Definition print_op (op : operator) : cstr * Z := (OP_COLOR ++ op_text op ++ COL_RESET ++ str " ", (Z.of_nat (List.length (op_text op)) + 1)%Z).

(** The loops over the operators of the context (cmd_help.c:181-193, 209-267): at most [n] of them, from [curr] on *)
Fixpoint walk (h : heap operator) (curr : ptr) (n : nat) : res (list operator) :=
  match n, curr with
  | 0, _ | _, None => Ok []
  | S k, Some _ => nd <- load h curr ;; r <- walk h (n_next nd) k ;; Ok (n_data nd :: r)
  end.
Definition ops_between (c : ctx) (start finish : nat) : res (list operator) :=
  p <- list_get_node (c_heap c) (c_list c) start ;; walk (c_heap c) p (finish - start).
(** cmd_help.c:178-194 *)
Fixpoint print_ops (remaining_width : Z) (ops : list operator) : cstr :=
  match ops with
  | [] => []
  | op :: ops' =>
    let '(text, n) := print_op op in
    let left := (remaining_width - n)%Z in
    text ++ (if (left <=? 0)%Z then [LF] ++ print_ops TTY_WIDTH ops' else print_ops left ops')
  end.
Definition print_ops_between (c : ctx) (start finish : nat) : res cstr := ops <- ops_between c start finish ;; Ok (print_ops TTY_WIDTH ops).

Section Help.
Variable L : libm.
Variable fuel : nat.

(** table.c:796-806 *)
Definition add_cells_from_array (rows : list (option cstr * option cstr)) : list call := flat_map (fun '(a, b) => [CAdd a; CAdd b; CNextRow]) rows.
(** get_empty_table, the calls and print_table *)
Definition table_of (ks : list call) : step (list (list seg)) :=
  sbind (of_res (exec_calls get_empty_table ks)) (fun t => sbind (fprint_table t) (fun '(_, out) => sret out)).

(** cmd_help.c:196-271 print_op_table *)
Definition op_header (assoc precedence arity value : bool) : list call :=
  [CAlignments 2 (Some [HLeft; HRight]) None; CHAlignRow HLeft; CAdd (Some (str " Name "))]
  ++ (if precedence then [CAdd (Some (str " Precedence "))] else []) ++ (if assoc then [CAdd (Some (str " Assoc. "))] else [])
  ++ (if arity then [CAdd (Some (str " Arity "))] else []) ++ (if value then [CAdd (Some (str " Value "))] else [])
  ++ [CAdd (Some (str " Description ")); CNextRow].
Definition op_row (w : world) (assoc precedence arity value : bool) (index : nat) (op : operator) : step (list call) :=
  sbind (if value then
           match arith_op_evaluate L fuel w op [] with
           | Done (Ok (_, (e, v))) => sret [CHAlign HRight; CAdd (if (e =? 0)%Z then Some (str " " ++ printf_g v ++ str " ") else None)]
           | Done Ub => Done Ub | Done Halt => Done Halt | Forever => Forever
           end
         else sret []) (fun value_cell =>
  match nth_error OP_DESCRIPTIONS index with
  | None => Done Ub                                                  (* read out of bounds *)
  | Some description =>
    sret ([CAdd (Some (str " " ++ o_name op ++ str " "))]
      ++ (if precedence then [CAdd (Some (str " " ++ printf_zu (o_prec op) ++ str " "))] else [])
      ++ (if assoc then [CAdd (Some (match o_assoc op with ALeft => str " Left " | ARight => str " Right " end))] else [])
      ++ (if arity then [CAdd (Some (match o_arity op with Some n => str " " ++ printf_zu n ++ str " " | None => str " * " end))] else [])
      ++ value_cell ++ [CAdd (Some description); CNextRow])
  end).
Definition listed (place : placement) (value : bool) (op : operator) : bool :=
  placement_eqb (o_place op) place && (negb (placement_eqb place PFunction) || Bool.eqb value (arity_zero (o_arity op))).
Fixpoint op_rows (w : world) (place : placement) (assoc precedence arity value : bool) (index : nat) (ops : list operator) : step (list call) :=
  match ops with
  | [] => sret []
  | op :: ops' =>
    sbind (if listed place value op then op_row w assoc precedence arity value index op else sret []) (fun r =>
    sbind (op_rows w place assoc precedence arity value (S index) ops') (fun r' => sret (r ++ r')))
  end.
Definition print_op_table (s : session) (place : placement) (assoc precedence arity value : bool) : step (list (list seg)) :=
  sbind (of_res (ops_between (ss_ctx s) PSEUDO_IND LAST_IND)) (fun ops =>
  sbind (op_rows (ss_world s) place assoc precedence arity value PSEUDO_IND ops) (fun rows =>
  table_of (op_header assoc precedence arity value ++ rows))).

(** cmd_help.c:273-310 print_short_help *)
Definition function_row (r : rule) : res (list call) :=
  a <- tree_to_str printf_g true (pt_tree (r_pat r)) ;;
  b <- tree_to_str printf_g true (r_after r) ;;
  Ok [CAdd (Some a); CAdd (Some (str " = ")); CAdd (Some b); CNextRow].
Fixpoint function_rows (rs : list rule) : res (list call) :=
  match rs with [] => Ok [] | r :: rs' => a <- function_row r ;; b <- function_rows rs' ;; Ok (a ++ b) end.
Definition print_short_help (s : session) : step (list printed) :=
  let ops a b := of_res (print_ops_between (ss_ctx s) a b) in
  sbind (table_of (add_cells_from_array COMMAND_TABLE)) (fun t =>
  sbind (ops PSEUDO_IND BASIC_IND) (fun o1 =>
  sbind (ops BASIC_IND TRIG_IND) (fun o2 =>
  sbind (ops TRIG_IND MISC_IND) (fun o3 =>
  sbind (ops MISC_IND CONST_IND) (fun o4 =>
  sbind (ops CONST_IND LAST_IND) (fun o5 =>
  let fixed :=
    [PTable t;
     PText ([LF] ++ str "Pseudo operators:" ++ [LF]); PText o1; PText ([LF] ++ str "Basic operators:" ++ [LF]); PText o2;
     PText ([LF] ++ str "Trigonometric functions:" ++ [LF]); PText o3; PText ([LF] ++ str "Miscellaneous functions:" ++ [LF]); PText o4;
     PText ([LF] ++ str "Constants:" ++ [LF]); PText o5; PText [LF]] in
  if 0 <? List.length (ss_funs s) then
    sbind (of_res (function_rows (ss_funs s))) (fun ks =>
    sbind (table_of ks) (fun t' => sret (fixed ++ [PText (str "User-defined functions and constants:" ++ [LF]); PTable t'])))
  else sret fixed)))))).

(** cmd_help.c:312-340 *)
Definition print_operators (s : session) : step (list printed) :=
  sbind (print_op_table s PInfix true true false false) (fun t1 =>
  sbind (print_op_table s PPrefix false true false false) (fun t2 =>
  sbind (print_op_table s PPostfix false true false false) (fun t3 =>
  sbind (print_op_table s PFunction false false true false) (fun t4 =>
  sbind (print_op_table s PFunction false false false true) (fun t5 =>
  sret [PText (str "Infix operators:" ++ [LF]); PTable t1; PText ([LF] ++ str "Prefix operators:" ++ [LF]); PTable t2;
        PText ([LF] ++ str "Postfix operators:" ++ [LF]); PTable t3; PText ([LF] ++ str "Functions:" ++ [LF]); PTable t4;
        PText ([LF] ++ str "Constants:" ++ [LF]); PTable t5]))))).
(** cmd_help.c:120-126, 312-340: the check and the command *)
Definition cmd_help_shows (s : session) (input : cstr) : step (option (list printed)) :=
  let shows x := sbind x (fun o => sret (Some o)) in
  if streqb (str "help") input then shows (print_short_help s)
  else if streqb (str "help operators") input then shows (print_operators s)
  else if streqb (str "license") input then shows (sret [PText LICENSE])
  else sret None.
End Help.
