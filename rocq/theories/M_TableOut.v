(** Model of the printing part of src/client/commands/cmd_table.c: the cells of the table, their texts and the line of
    the fold result. What the command computes is in M_Session (cmd_table_exec), the table library in M_Table. *)
From Coq Require Import List Ascii String NArith ZArith Bool Lia Arith.
From Coq.Floats Require Import SpecFloat.
From Verif Require Import M_Base M_StringUtil M_Tree M_Context M_TreeUtil M_Printer M_Printf M_Table M_Double M_Eval M_Session.
Import ListNotations.
Open Scope list_scope.
Open Scope nat_scope.

(** The decimal numeral of a natural number, without leading zeros: printf("%zu") *)
Definition whole_text (n : Z) : cstr := last_digits (S (Z.to_nat (log10 n))) n.
Definition printf_zu (i : nat) : cstr := whole_text (Z.of_nat i).
(** printf("%-.10f", v) (cmd_table.c:20 DOUBLE_FMT; C11 7.21.6.1): the digits in front of the point, at least one, and ten
    behind it, those of the exact value rounded to nearest, ties to even. The minus flag has no effect without a width.
    The sign of a NaN is not modelled, as in M_Printf. *)
Definition fixed_text (num den : Z) : cstr :=
  let n := nearest (num * 10 ^ 10) den in whole_text (n / 10 ^ 10) ++ "."%char :: last_digits 10 n.
Definition printf_f (v : double) : cstr :=
  match v with
  | S754_nan => str "nan"
  | S754_infinity s => sign_text s ++ str "inf"
  | S754_zero s => sign_text s ++ str "0.0000000000"
  | S754_finite s m e =>
    sign_text s ++ (if (0 <=? e)%Z then fixed_text (Zpos m * 2 ^ e) 1 else fixed_text (Zpos m) (2 ^ (- e)))
  end.

(** cmd_table.c:150-166; VAR_COLOR and COL_RESET as in tree_to_string.h *)
Definition header_calls (text : cstr) (vars : list cstr) : list call :=
  [CAdd None;
   CAdd (match vars with v :: _ => Some (VAR_COLOR ++ str " " ++ v ++ str " " ++ COL_RESET) | [] => None end);
   CAdd (Some text); CNextRow].
(** cmd_table.c:177-182, 195-198, 202; a fold result is printed after the table *)
Definition shown_calls (interactive : bool) (o : shown) : list call :=
  match o with
  | SRow i x v =>
    (if interactive then [CAdd (Some (str " " ++ printf_zu i ++ str " "))] else [])
    ++ [CAdd (Some (str " " ++ printf_f x ++ str " "));
        CAdd (Some (match v with Some r => str " " ++ printf_f r ++ str " " | None => str " Error " end)); CNextRow]
  | _ => []
  end.
(** cmd_table.c:148-208 *)
Definition table_calls (interactive : bool) (text : cstr) (vars : list cstr) (o : list shown) : list call :=
  (if interactive then header_calls text vars else []) ++ flat_map (shown_calls interactive) o
  ++ [CAlignments 3 (Some [HRight; HRight; HRight]) None].
(** cmd_table.c:212-216 *)
Definition fold_text (o : list shown) : cstr :=
  flat_map (fun e => match e with SFold f => str "Fold result: " ++ printf_g f ++ [LF] | _ => [] end) o.

Section Shows.
Variable L : libm.
Variable fuel : nat.
Variable strtod : cstr -> option double.
(** cmd_table.c:61-90: the text of the header and the variables. The expression is printed as it was typed, before it is
    simplified; the variable is that of the simplified expression. *)
Definition table_header (s : session) (input : cstr) : step (cstr * list cstr) :=
  sbind (of_res (strip_all (rev TABLE_COMMAND) (str_split (skipn (List.length TABLE_COMMAND) input) [str ";"; str ";"; str ";"; FOLD_KEYWORD; str ";"]))) (fun args =>
  sbind (of_res (arith_parse_raw strtod s (hd [] args))) (fun '(tokens, o) =>
  match o with
  | None => Done Ub                                                   (* not reached: the command has succeeded *)
  | Some raw =>
    sbind (of_res (tree_to_str printf_g true raw)) (fun text =>
    sbind (arith_simplify L fuel s tokens raw) (fun '(_, o) =>
    match o with
    | None => Done Ub
    | Some e => match list_variables e 1 with (_, Some vars, _) => sret (str " " ++ text ++ str " ", vars) | _ => Done Ub end
    end))
  end)).
(** The lines of the table and the line of the fold result; [None] if the command fails before anything is printed *)
Definition cmd_table_shows (interactive : bool) (s : session) (input : cstr) : step (option (list (list seg) * cstr)) :=
  sbind (cmd_table_exec L fuel strtod s input) (fun r =>
  match r with
  | Did s' o true =>
    sbind (table_header s input) (fun '(text, vars) =>
    sbind (of_res (exec_calls get_empty_table (table_calls interactive text vars o))) (fun t =>
    sbind (fprint_table t) (fun '(_, out) => sret (Some (out, fold_text o)))))
  | _ => sret None
  end).
End Shows.
