(** Model of src/client/core/arith_context.c: the operators of the calculator. *)
From Coq Require Import List Ascii String NArith ZArith Bool Lia Arith.
From Verif Require Import M_Base M_LinkedList M_Trie M_Tree M_Context.
Import ListNotations.
Open Scope res_scope.

(** arith_context.c:31-88 *)
Definition arith_ops : list operator :=
  [ op_get_prefix (str "$") 0;
    op_get_prefix (str "@") 8;
    op_get_postfix (str "'") 7;
    op_get_function (str "deriv") (Some 2);
    op_get_infix (str "+") 2 ALeft;
    op_get_infix (str "-") 2 ALeft;
    op_get_infix (str "*") 4 ALeft;
    op_get_infix (str "/") 3 ALeft;
    op_get_infix (str "^") 5 ARight;
    op_get_infix (str "C") 1 ALeft;
    op_get_infix (str "mod") 1 ALeft;
    op_get_prefix (str "+") 7;
    op_get_prefix (str "-") 7;
    op_get_postfix (str "!") 6;
    op_get_postfix (str "%") 6;
    op_get_function (str "exp") (Some 1);
    op_get_function (str "root") (Some 2);
    op_get_function (str "sqrt") (Some 1);
    op_get_function (str "log") (Some 2);
    op_get_function (str "ln") (Some 1);
    op_get_function (str "ld") (Some 1);
    op_get_function (str "lg") (Some 1);
    op_get_function (str "sin") (Some 1);
    op_get_function (str "cos") (Some 1);
    op_get_function (str "tan") (Some 1);
    op_get_function (str "asin") (Some 1);
    op_get_function (str "acos") (Some 1);
    op_get_function (str "atan") (Some 1);
    op_get_function (str "sinh") (Some 1);
    op_get_function (str "cosh") (Some 1);
    op_get_function (str "tanh") (Some 1);
    op_get_function (str "asinh") (Some 1);
    op_get_function (str "acosh") (Some 1);
    op_get_function (str "atanh") (Some 1);
    op_get_function (str "max") None;
    op_get_function (str "min") None;
    op_get_function (str "abs") (Some 1);
    op_get_function (str "ceil") (Some 1);
    op_get_function (str "floor") (Some 1);
    op_get_function (str "round") (Some 1);
    op_get_function (str "trunc") (Some 1);
    op_get_function (str "frac") (Some 1);
    op_get_function (str "sgn") (Some 1);
    op_get_function (str "sum") None;
    op_get_function (str "prod") None;
    op_get_function (str "avg") None;
    op_get_function (str "gcd") (Some 2);
    op_get_function (str "lcm") (Some 2);
    op_get_function (str "rand") (Some 2);
    op_get_function (str "fib") (Some 1);
    op_get_function (str "gamma") (Some 1);
    op_get_function (str "var") None;
    op_get_constant (str "pi");
    op_get_constant (str "e");
    op_get_constant (str "phi");
    op_get_constant (str "clight");
    op_get_constant (str "csound");
    op_get_constant (str "ans") ].

(** arith_context.c:27-95. software_defect (line 90) prints a message and exits: [Halt]. *)
Definition get_arith_ctx : res ctx :=
  '(c, ok) <- ctx_add_ops ctx_create arith_ops ;;
  if ok : bool then
    o <- ctx_lookup_op c (str "*") PInfix ;;
    '(c', _) <- ctx_set_glue_op c (option_map o_addr o) ;;
    Ok c'
  else Halt.
