(** Specification vocabulary for tables: C50, C51, C66-C68. *)
From Coq Require Import List Ascii String NArith ZArith Bool Lia Arith.
From Verif Require Import M_Base M_StringUtil M_Table S_Util.
Import ListNotations.
Open Scope nat_scope.

(** w[from] + ... + w[to-1] *)
Definition total (w : list nat) (from to : nat) : nat := fold_right Nat.add 0 (map (fun j => nth j w 0) (List.seq from (to - from))).
(** How many of the columns (rows) from, ..., to-1 have a property *)
Definition how_many (p : nat -> bool) (from to : nat) : nat := List.length (filter p (List.seq from (to - from))).

(** ** What a terminal shows *)
(** A colour sequence runs from ESC to the next m and is not shown. [esc]: inside a sequence *)
Definition ESC : ascii := "027".
Fixpoint visible (esc : bool) (s : cstr) : nat :=
  match s with
  | [] => 0
  | c :: s' => if esc then visible (negb (ceqb c "m")) s' else if ceqb c ESC then visible true s' else S (visible false s')
  end.
Fixpoint escaped (esc : bool) (s : cstr) : bool :=
  match s with
  | [] => esc
  | c :: s' => if esc then escaped (negb (ceqb c "m")) s' else escaped (ceqb c ESC) s'
  end.
(** Columns a printed line takes; a character of a border takes one. *)
Fixpoint columns (esc : bool) (l : list seg) : nat :=
  match l with
  | [] => 0
  | Box _ _ :: l' => (if esc then 0 else 1) + columns esc l'
  | Bytes s :: l' => visible esc s + columns (escaped esc s) l'
  end.

(** ** Texts of cells *)
Inductive place := Plain | Inside | Behind.
(** Colour sequences are complete and do not follow one another directly. *)
Fixpoint tidy (p : place) (s : cstr) : Prop :=
  match s with
  | [] => p <> Inside
  | c :: s' =>
    match p with
    | Plain => tidy (if ceqb c ESC then Inside else Plain) s'
    | Inside => tidy (if ceqb c "m" then Behind else Inside) s'
    | Behind => c <> ESC /\ tidy Plain s'
    end
  end.
(** Every line is tidy, and the first is not empty unless it is the only one. *)
Definition tidy_text (s : cstr) : Prop := Forall (tidy Plain) (text_lines s) /\ hd_error s <> Some LF.

(** ** Tables *)
Definition cell_at (t : table) (y x : nat) (c : cell) : Prop := the_cell t y x = Ok c.
(** Not used yet: no text, no part of a span *)
Definition free_cell (c : cell) : Prop := c_set c = false /\ c_parent c = None /\ c_sx c = 1 /\ c_sy c = 1.
(** Calls whose texts are tidy, and that do not make a cell span over cells already used *)
Definition clean_call (t : table) (k : call) : Prop :=
  match k with
  | CAdd (Some s) => tidy_text s
  | CSpan sx sy =>
    (forall c, curr_cell t = Ok c -> c_parent c = None)
    /\ forall i j c, i < sy -> j < sx -> (i, j) <> (0, 0) -> cell_at t (t_row t + i) (t_col t + j) c -> free_cell c
  | _ => True
  end.
Definition no_span (k : call) : Prop := match k with CSpan _ _ => False | _ => True end.
(** Lines at the left of single cells are not drawn (they may be removed). *)
Definition no_left_line (k : call) : Prop := match k with CLeft b => b = BNone | _ => True end.
(** The table after these calls *)
Inductive built (ok : table -> call -> Prop) : table -> Prop :=
| b_empty : built ok get_empty_table
| b_call : forall t k t', built ok t -> ok t k -> exec_call t k = Ok t' -> built ok t'.
(** Printing finds the inner borders of every cell that spans several columns (it looks one column too far to the right). *)
Definition borders_match (t : table) : Prop :=
  forall y x c, cell_at t y x c -> c_parent c = None -> 1 < c_sx c -> x + c_sx c < TABLE_MAX_COLS /\ has_vline t (x + 1) = has_vline t (x + c_sx c).
(** The width of the whole table *)
Definition table_width (t : table) (ws : list nat) : nat := total ws 0 (t_cols t) + how_many (has_vline t) 0 (t_cols t).

(** ** What a table looks like: C66 *)
Inductive glyph := Char (c : ascii) | Line (double : bool) (index : nat).
Definition glyphs (l : list seg) : list glyph := flat_map (fun s => match s with Box d i => [Line d i] | Bytes b => map Char b end) l.
Definition blanks (n : nat) : cstr := repeat " "%char n.
(** A text in a field of [w] columns *)
Definition aligned (h : halign) (w : nat) (l : cstr) : cstr :=
  let gap := w - visible false l in
  match h with
  | HLeft => l ++ blanks gap
  | HRight => blanks gap ++ l
  | HCenter => blanks (gap / 2) ++ l ++ blanks (gap - gap / 2)
  end.
(** What stands in the k-th of [height] lines; nothing above and below the text *)
Definition line_of (v : valign) (height : nat) (ls : list cstr) (k : nat) : cstr :=
  let gap := height - List.length ls in
  let above := match v with VTop => 0 | VBottom => gap | VCenter => gap / 2 end in
  if k <? above then [] else nth (k - above) ls [].
Definition look (t : table) (y x : nat) : cell := match the_cell t y x with Ok c => c | _ => fresh_cell y x end.
(** The cell that is shown in a place: column and row *)
Definition owner (c : cell) : nat * nat := match c_parent c with Some p => p | None => (c_x c, c_y c) end.
Definition setting {A} (own : option A) (default : A) : A := match own with Some a => a | None => default end.
(** The i-th line of a cell, as wide and as high as the columns, rows and lines it covers *)
Definition field (t : table) (ws hs : list nat) (c : cell) (i : nat) : list glyph :=
  let x := c_x c in let y := c_y c in
  map Char (aligned (setting (c_h c) (nth x (t_h t) HLeft)) (total ws x (x + c_sx c) + how_many (has_vline t) (x + 1) (x + c_sx c))
    (line_of (setting (c_v c) (nth x (t_v t) VTop)) (total hs y (y + c_sy c) + how_many (has_hline t) (y + 1) (y + c_sy c))
       (match c_text c with Some s => text_lines s | None => [] end) i)).
Definition left_line (t : table) (y x : nat) : border := setting (c_left (look t y x)) (nth x (t_left t) BNone).
Definition above_line (t : table) (y x : nat) : border := setting (c_above (look t y x)) (match nth_error (t_rows t) y with Some r => r_above r | None => BNone end).
Definition stroke (index : nat) (b : border) : glyph := match b with BNone => Char " " | BSingle => Line false index | BDouble => Line true index end.
(** Lines printed of the cells that begin in row [py] before the content of row [y] *)
Definition printed_before (t : table) (hs : list nat) (py y : nat) : nat := total hs py y + how_many (has_hline t) (py + 1) (y + 1).
(** In the k-th line of row [y]: the field of every cell, in its first column, behind its left line *)
Definition content_piece (t : table) (ws hs : list nat) (y k x : nat) : list glyph :=
  let '(px, py) := owner (look t y x) in
  if px =? x then (if has_vline t x then [stroke 10 (left_line t y x)] else []) ++ field t ws hs (look t py px) (printed_before t hs py y + k) else [].
(** Characters of borders: arms upwards, to the right, downwards, to the left *)
Definition arms (index : nat) : bool * bool * bool * bool :=
  nth index [(false, true, true, false); (false, true, true, true); (false, false, true, true);
             (true, true, true, false); (true, true, true, true); (true, false, true, true);
             (true, true, false, false); (true, true, false, true); (true, false, false, true);
             (false, true, false, true); (true, false, true, false)] (false, false, false, false).
Definition same_arms (a b : bool * bool * bool * bool) : bool :=
  let '(a1, a2, a3, a4) := a in let '(b1, b2, b3, b4) := b in Bool.eqb a1 b1 && Bool.eqb a2 b2 && Bool.eqb a3 b3 && Bool.eqb a4 b4.
Definition drawn (b : border) : bool := match b with BNone => false | _ => true end.
(** Where lines meet: the character with just these arms, or a blank (11) if there is none; double if most of the lines are *)
Definition corner (t : table) (y x : nat) : glyph :=
  let up := match y with 0 => BNone | S y' => left_line t y' x end in
  let right := above_line t y x in
  let down := left_line t y x in
  let left := match x with 0 => BNone | S x' => above_line t y x' end in
  let count b := List.length (filter (fun b' => match b, b' with BSingle, BSingle | BDouble, BDouble => true | _, _ => false end) [up; right; down; left]) in
  Line (count BSingle <? count BDouble)
    (match List.find (fun i => same_arms (arms i) (drawn up, drawn right, drawn down, drawn left)) (List.seq 0 11) with Some i => i | None => 11 end).
(** In the line above row [y]: a stroke above every cell that begins here; a cell that began above goes on *)
Definition border_piece (t : table) (ws hs : list nat) (y x : nat) : list glyph :=
  let '(px, py) := owner (look t y x) in
  let cross := if has_vline t x then [corner t y x] else [] in
  if py =? y then cross ++ repeat (stroke 9 (above_line t y x)) (nth x ws 0)
  else if px =? x then cross ++ field t ws hs (look t py px) (total hs py y + how_many (has_hline t) (py + 1) y) else [].
Definition picture (t : table) (ws hs : list nat) : list (list glyph) :=
  flat_map (fun y =>
    (if has_hline t y then [flat_map (border_piece t ws hs y) (List.seq 0 (t_cols t))] else []) ++
    map (fun k => flat_map (content_piece t ws hs y k) (List.seq 0 (t_cols t))) (List.seq 0 (nth y hs 0))) (List.seq 0 (num_rows t)).
(** Printing removes lines above an empty last column and at the left of an empty last row. *)
Definition trimmed (t : table) (last_width last_height : nat) (t' : table) : Prop :=
  t_cols t' = t_cols t /\ num_rows t' = num_rows t /\ t_left t' = t_left t /\ t_h t' = t_h t /\ t_v t' = t_v t /\ map r_above (t_rows t') = map r_above (t_rows t) /\
  forall y x c, cell_at t y x c -> exists c', cell_at t' y x c' /\
    c_text c' = c_text c /\ c_h c' = c_h c /\ c_v c' = c_v c /\ c_sx c' = c_sx c /\ c_sy c' = c_sy c /\ c_parent c' = c_parent c /\ c_x c' = c_x c /\ c_y c' = c_y c /\
    c_above c' = (if (last_width =? 0) && (S x =? t_cols t) then Some BNone else c_above c) /\
    c_left c' = (if (last_height =? 0) && (S y =? num_rows t) && (x <? t_cols t) then Some BNone else c_left c).
(** Lines above single cells are not drawn (they may be removed). *)
Definition no_above_line (k : call) : Prop := match k with CAbove b => b = BNone | _ => True end.

(** ** Lines: C68 *)
Definition left_drawn (x : nat) (r : row) : bool := match nth_error (r_cells r) x with Some c => drawn (setting (c_left c) BNone) | None => false end.
Definition above_drawn (c : cell) : bool := drawn (setting (c_above c) BNone).
(** How many lines are drawn at the left of column [x]: the line of the whole column, and lines of single cells *)
Definition column_lines (t : table) (x : nat) : nat := (if drawn (nth x (t_left t) BNone) then 1 else 0) + List.length (filter (left_drawn x) (t_rows t)).
(** How many lines are drawn above a row *)
Definition row_lines (r : row) : nat := (if drawn (r_above r) then 1 else 0) + List.length (filter above_drawn (r_cells r)).
