(** What the help command prints: C76. *)
From Coq Require Import List Ascii String NArith ZArith Bool Lia Arith.
From Verif Require Import M_Base M_StringUtil M_Tree M_Printf M_TableOut M_Double M_Printer M_Table M_Help S_Table S_TableApi S_TableOut S_Session.
Import ListNotations.
Open Scope string_scope.
Open Scope list_scope.
Open Scope nat_scope.

(** ** The operators: names and descriptions, in five groups *)
Definition manual : list (string * list (string * string)) :=
  [
   ("Pseudo operators",
    [("$", "Identity to parse rest of expression as if put in parentheses");
     ("@", "History operator");
     ("'", "Derivative shorthand");
     ("deriv", "Derivative of expression with respect to variable")]);
   ("Basic operators",
    [("+", "Addition");
     ("-", "Subtraction");
     ("*", "Multiplication");
     ("/", "Division");
     ("^", "Exponentiation");
     ("C", "Binomial coefficient");
     ("mod", "Modulo operator");
     ("+", "Identity");
     ("-", "Negation");
     ("!", "Factorial");
     ("%", "Division by 100");
     ("exp", "Natural exponential function");
     ("root", "nth root of x");
     ("sqrt", "Square root");
     ("log", "Logarithm to base n");
     ("ln", "Natural logarithm");
     ("ld", "Binary logarithm");
     ("lg", "Logarithm to base 10")]);
   ("Trigonometric functions",
    [("sin", "Sine");
     ("cos", "Cosine");
     ("tan", "Tangent");
     ("asin", "Inverse sine");
     ("acos", "Inverse cosine");
     ("atan", "Inverse tangens");
     ("sinh", "Hyperbolic sine");
     ("cosh", "Hyperbolic cosine");
     ("tanh", "Hyperbolic tangent");
     ("asinh", "Inverse hyperbolic sine");
     ("acosh", "Inverse hyperbolic cosine");
     ("atanh", "Inverse hyperbolic tangent")]);
   ("Miscellaneous functions",
    [("max", "Maximum");
     ("min", "Minimum");
     ("abs", "Absolute value");
     ("ceil", "Round up to nearest integer");
     ("floor", "Round down to nearest integer");
     ("round", "Round to nearest integer");
     ("trunc", "Round towards zero to nearest integer");
     ("frac", "Fractional part of x");
     ("sgn", "Sign of x (-1, 0, 1)");
     ("sum", "Sum of all operands");
     ("prod", "Product of all operands");
     ("avg", "Arithmetic mean of all operands");
     ("gcd", "Greatest common divisor");
     ("lcm", "Least common multiple");
     ("rand", "Random integer between min and max (exclusive)");
     ("fib", "Fibonacci sequence");
     ("gamma", "Gamma function");
     ("var", "Variance of a population")]);
   ("Constants",
    [("pi", "Archimedes' constant");
     ("e", "Euler's number");
     ("phi", "Golden ratio");
     ("clight", "Speed of light [m/s]");
     ("csound", "Speed of sound in air at 20 °C [m/s]");
     ("ans", "Last result")])].
Definition entries : list (string * string) := flat_map snd manual.

(** How an operator is used *)
Definition usage (op : operator) : cstr :=
  match o_place op, o_arity op with
  | PPrefix, _ => o_name op ++ str "x"
  | PInfix, _ => if is_letter (hd NUL (o_name op)) then str "x " ++ o_name op ++ str " y" else str "x" ++ o_name op ++ str "y"
  | PPostfix, _ => str "x" ++ o_name op
  | PFunction, Some 0 => o_name op
  | PFunction, None => o_name op ++ str "(*)"
  | PFunction, Some n => o_name op ++ str "(" ++ printf_zu n ++ str ")"
  end.
Definition in_a_line (ops : list operator) : cstr := flat_map (fun op => usage op ++ str " ") ops.
(** A line is broken behind the operator that reaches column 80. *)
Fixpoint broken (lines : list (list operator)) : Prop :=
  match lines with
  | [] => False
  | [l] => List.length (in_a_line l) < 80
  | l :: lines' => 80 <= List.length (in_a_line l) /\ List.length (in_a_line (removelast l)) < 80 /\ broken lines'
  end.
Fixpoint lines_text (lines : list (list operator)) : cstr :=
  match lines with [] => [] | [l] => in_a_line l | l :: lines' => in_a_line l ++ [LF] ++ lines_text lines' end.
(** Which characters of a text are coloured: the sequence ESC [0m ends all colours, any other sequence starts one. [seq] is
    the sequence being read. *)
Fixpoint tinted (on : bool) (seq : option cstr) (s : cstr) : list (ascii * bool) :=
  match s with
  | [] => []
  | c :: s' =>
    match seq with
    | Some q => if Ascii.eqb c "m" then tinted (negb (streqb q (str "[0"))) None s' else tinted on (Some (q ++ [c])) s'
    | None => if Ascii.eqb c "027"%char then tinted on (Some []) s' else (c, on) :: tinted on None s'
    end
  end.
Definition with_tint (b : bool) (s : cstr) : list (ascii * bool) := map (fun c => (c, b)) s.
Definition tinted_line (ops : list operator) : list (ascii * bool) := flat_map (fun op => with_tint true (usage op) ++ with_tint false (str " ")) ops.
Fixpoint tinted_lines (lines : list (list operator)) : list (ascii * bool) :=
  match lines with [] => [] | [l] => tinted_line l | l :: lines' => tinted_line l ++ with_tint false [LF] ++ tinted_lines lines' end.
(** The text, without its colours, shows these operators in this order. The operators are coloured, and nothing else. *)
Definition shows_operators (ops : list operator) (text : cstr) : Prop :=
  exists lines, List.concat lines = ops /\ broken lines /\ seen_text false text = lines_text lines /\ tinted false None text = tinted_lines lines.
Definition heading (s : string) : cstr := [LF] ++ str s ++ str ":" ++ [LF].

(** ** The commands *)
Definition command_cells : list (list (option cstr)) :=
  [[Some (str "<func|const> = <after>"); Some (str "Adds function or constant")];
   [Some (str "table <expr> ; <from> ; <to> ; <step>  " ++ [LF] ++ str "   [fold <expr> ; <init>]"); Some (str "Prints table of values")];
   [Some (str "load [simplification] <path>"); Some (str "Executes commands or loads simplification ruleset in file")];
   [Some (str "clear [<func>]"); Some (str "Clears all or one function or constant")];
   [Some (str "help [operators]"); Some (str "Shows this message or a verbose list of all operators")];
   [Some (str "license"); Some (str "Shows information about ccalc's license")];
   [Some (str "quit"); Some (str "Closes application")]].

(** Every infix operator has two operands, prefix and postfix operators have one. *)
Fixpoint shaped (t : node) : Prop :=
  match t with
  | NOp op cs _ =>
    match o_place op with PInfix => List.length cs = 2 | PPrefix | PPostfix => List.length cs = 1 | PFunction => True end /\
    fold_right (fun c P => shaped c /\ P) True cs
  | _ => True
  end.
(** ** Functions of the user: f(x,y) or, without parameters, just the name *)
Fixpoint comma_list (xs : list cstr) : cstr := match xs with [] => [] | [x] => x | x :: xs' => x ++ str "," ++ comma_list xs' end.
Definition left_side (f : fundef) : cstr :=
  o_name (f_op f) ++ match f_params f with [] => [] | xs => str "(" ++ comma_list xs ++ str ")" end.
Definition function_cells (texts : list (cstr * cstr)) : list (list (option cstr)) := map (fun '(a, b) => [Some a; Some (str " = "); Some b]) texts.

(** The left side as it was defined, the body as expressions are printed; texts without their colours *)
Definition shown_function (f : fundef) (p : cstr * cstr) : Prop :=
  seen_text false (fst p) = left_side f /\ tree_to_str printf_g false (f_body f) = Ok (seen_text false (snd p)).

(** ** Tables whose cells have their own alignment *)
Definition aligned_grid (M : list (list (halign * option cstr))) : list (list glyph) :=
  let texts := map (map snd) M in
  flat_map (fun r => map (fun k =>
    flat_map (fun x => let '(h, c) := nth x r (HLeft, None) in map Char (aligned h (column_width texts x) (nth k (cell_lines c) [])))
      (List.seq 0 (maximum (map (@List.length (option cstr)) texts))))
    (List.seq 0 (row_height (map snd r)))) M.
Definition at_left (s : cstr) : halign * option cstr := (HLeft, padded s).
Definition at_right (s : cstr) : halign * option cstr := (HRight, padded s).
Definition title_cells (l : list string) : list (halign * option cstr) := map (fun s => at_left (str s)) l.
(** The operators with their descriptions *)
Definition described (ops : list operator) : list (operator * cstr) := combine ops (map (fun e => str (snd e)) entries).
Definition of_place (p : placement) (e : operator * cstr) : bool := placement_eqb (o_place (fst e)) p.
Definition is_constant (e : operator * cstr) : bool := of_place PFunction e && match o_arity (fst e) with Some 0 => true | _ => false end.
Definition is_function (e : operator * cstr) : bool := of_place PFunction e && negb (is_constant e).
Definition infix_cells (ops : list operator) : list (list (halign * option cstr)) :=
  title_cells ["Name"; "Precedence"; "Assoc."; "Description"] ::
  map (fun '(op, d) => [at_left (o_name op); at_right (printf_zu (o_prec op)); at_left (match o_assoc op with ALeft => str "Left" | ARight => str "Right" end); at_left d])
    (filter (of_place PInfix) (described ops)).
Definition unary_cells (p : placement) (ops : list operator) : list (list (halign * option cstr)) :=
  title_cells ["Name"; "Precedence"; "Description"] ::
  map (fun '(op, d) => [at_left (o_name op); at_right (printf_zu (o_prec op)); at_left d]) (filter (of_place p) (described ops)).
Definition callable_cells (ops : list operator) : list (list (halign * option cstr)) :=
  title_cells ["Name"; "Arity"; "Description"] ::
  map (fun '(op, d) => [at_left (o_name op); at_right (match o_arity op with Some n => printf_zu n | None => str "*" end); at_left d]) (filter is_function (described ops)).
(** The constants and the last result, if there is one *)
Definition constant_values (history : list double) : list (option cstr) :=
  map (fun s => Some (str s)) ["3.141592654"; "2.718281828"; "1.618033989"; "299792458"; "343.2"] ++ [match rev history with v :: _ => Some (printf_g v) | [] => None end].
Definition constant_cells (history : list double) (ops : list operator) : list (list (halign * option cstr)) :=
  title_cells ["Name"; "Value"; "Description"] ::
  map (fun '((op, d), v) => [at_left (o_name op); (HRight, match v with Some s => padded s | None => None end); at_left d]) (combine (filter is_constant (described ops)) (constant_values history)).
