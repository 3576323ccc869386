(** What the table command prints: C74. *)
From Coq Require Import Reals.
From Coq Require Import List Ascii String NArith ZArith Bool Lia Arith.
From Coq.Floats Require Import SpecFloat.
From Verif Require Import M_Base M_StringUtil M_Tree M_Printf M_TableOut M_Session S_Printf.
Import ListNotations.
Open Scope string_scope.
Open Scope list_scope.
Open Scope nat_scope.

(** ** Texts of numbers *)
(** No zeros in front *)
Definition proper_numeral (s : cstr) : Prop := s <> [] /\ digits s /\ (hd NUL s = "0"%char -> s = str "0").
Definition negative (v : double) : bool := match v with S754_zero s | S754_infinity s | S754_finite s _ _ => s | S754_nan => false end.
(** A sign if the number is negative, digits, a point and ten digits; the number written is within half a unit of the last place. *)
Definition ten_places (s : cstr) (v : double) (a : R) : Prop :=
  exists ip fp, s = (if negative v then str "-" else []) ++ ip ++ str "." ++ fp /\ proper_numeral ip /\ digits fp /\ List.length fp = 10 /\
    (Rabs (Rabs a - IZR (number_of (ip ++ fp)) / 10000000000) <= 5 / 100000000000)%R.

(** ** Cells *)
Definition padded (s : cstr) : option cstr := Some (str " " ++ s ++ str " ").
(** The escape sequences for bold cyan and for the end of colours *)
Definition cyan : cstr := "027"%char :: str "[1;36m".
Definition no_colour : cstr := "027"%char :: str "[0m".
(** A row: its number (only for terminals), the argument and the value *)
Definition row_cells (interactive : bool) (o : shown) : list (option cstr) :=
  match o with
  | SRow i x v => (if interactive then [padded (printf_zu i)] else []) ++ [padded (printf_f x); padded (match v with Some r => printf_f r | None => str "Error" end)]
  | _ => []
  end.
Definition is_row (o : shown) : bool := match o with SRow _ _ _ => true | _ => false end.
(** The header: nothing above the numbers, the variable if there is one, the expression *)
Definition header_cells (var : option cstr) (text : cstr) : list (option cstr) :=
  [None; match var with Some x => Some (cyan ++ str " " ++ x ++ str " " ++ no_colour) | None => None end; padded text].
Definition cells (interactive : bool) (var : option cstr) (text : cstr) (o : list shown) : list (list (option cstr)) :=
  (if interactive then [header_cells var text] else []) ++ map (row_cells interactive) (filter is_row o).

(** What is seen of a text: everything but the colour sequences, which run from ESC to the next m. *)
Fixpoint seen_text (esc : bool) (s : cstr) : cstr :=
  match s with
  | [] => []
  | c :: s' => if esc then seen_text (negb (Ascii.eqb c "m")) s' else if Ascii.eqb c "027"%char then seen_text true s' else c :: seen_text false s'
  end.
