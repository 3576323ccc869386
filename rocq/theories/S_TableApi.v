(** What the calls of the table library do: C69. A sheet is an endless grid of spots; a call changes it in a few places. *)
From Coq Require Import List Ascii String NArith ZArith Bool Lia Arith.
From Verif Require Import M_Base M_StringUtil M_Table S_Util S_Table.
Import ListNotations.
Open Scope nat_scope.

Record spot := {
  p_text : option cstr; p_used : bool; p_owner : option (nat * nat);   (* column and row of the cell that covers the spot *)
  p_sx : nat; p_sy : nat; p_left : option border; p_above : option border; p_h : option halign; p_v : option valign }.
Definition new_spot : spot :=
  {| p_text := None; p_used := false; p_owner := None; p_sx := 1; p_sy := 1; p_left := None; p_above := None; p_h := None; p_v := None |}.
Record sheet := {
  g_rows : nat; g_cols : nat; g_y : nat; g_x : nat; g_spot : nat -> nat -> spot;
  g_hline : nat -> border; g_vline : nat -> border; g_h : nat -> halign; g_v : nat -> valign }.
Definition new_sheet : sheet :=
  {| g_rows := 1; g_cols := 0; g_y := 0; g_x := 0; g_spot := fun _ _ => new_spot;
     g_hline := fun _ => BNone; g_vline := fun _ => BNone; g_h := fun _ => HLeft; g_v := fun _ => VTop |}.
Definition same (g g' : sheet) : Prop :=
  g_rows g' = g_rows g /\ g_cols g' = g_cols g /\ g_y g' = g_y g /\ g_x g' = g_x g /\ (forall y x, g_spot g' y x = g_spot g y x) /\
  (forall y, g_hline g' y = g_hline g y) /\ (forall x, g_vline g' x = g_vline g x) /\ (forall x, g_h g' x = g_h g x) /\ (forall x, g_v g' x = g_v g x).

(** A table, seen as a sheet *)
Definition seen (c : cell) : spot :=
  {| p_text := c_text c; p_used := c_set c; p_owner := c_parent c; p_sx := c_sx c; p_sy := c_sy c;
     p_left := c_left c; p_above := c_above c; p_h := c_h c; p_v := c_v c |}.
Definition view (t : table) : sheet :=
  {| g_rows := num_rows t; g_cols := t_cols t; g_y := t_row t; g_x := t_col t; g_spot := fun y x => seen (look t y x);
     g_hline := fun y => match nth_error (t_rows t) y with Some r => r_above r | None => BNone end;
     g_vline := fun x => nth x (t_left t) BNone; g_h := fun x => nth x (t_h t) HLeft; g_v := fun x => nth x (t_v t) VTop |}.

(** Changes of a sheet *)
Definition goto (y x : nat) (g : sheet) : sheet :=
  {| g_rows := Nat.max (S y) (g_rows g); g_cols := g_cols g; g_y := y; g_x := x; g_spot := g_spot g;
     g_hline := g_hline g; g_vline := g_vline g; g_h := g_h g; g_v := g_v g |}.
Definition wide (n : nat) (g : sheet) : sheet :=
  {| g_rows := g_rows g; g_cols := Nat.max n (g_cols g); g_y := g_y g; g_x := g_x g; g_spot := g_spot g;
     g_hline := g_hline g; g_vline := g_vline g; g_h := g_h g; g_v := g_v g |}.
Definition high (n : nat) (g : sheet) : sheet :=
  {| g_rows := Nat.max n (g_rows g); g_cols := g_cols g; g_y := g_y g; g_x := g_x g; g_spot := g_spot g;
     g_hline := g_hline g; g_vline := g_vline g; g_h := g_h g; g_v := g_v g |}.
Definition spots (f : nat -> nat -> spot -> spot) (g : sheet) : sheet :=
  {| g_rows := g_rows g; g_cols := g_cols g; g_y := g_y g; g_x := g_x g; g_spot := fun y x => f y x (g_spot g y x);
     g_hline := g_hline g; g_vline := g_vline g; g_h := g_h g; g_v := g_v g |}.
Definition hlines (p : nat -> bool) (b : border) (g : sheet) : sheet :=
  {| g_rows := g_rows g; g_cols := g_cols g; g_y := g_y g; g_x := g_x g; g_spot := g_spot g;
     g_hline := fun y => if p y then b else g_hline g y; g_vline := g_vline g; g_h := g_h g; g_v := g_v g |}.
Definition vlines (p : nat -> bool) (b : border) (g : sheet) : sheet :=
  {| g_rows := g_rows g; g_cols := g_cols g; g_y := g_y g; g_x := g_x g; g_spot := g_spot g;
     g_hline := g_hline g; g_vline := fun x => if p x then b else g_vline g x; g_h := g_h g; g_v := g_v g |}.
Definition aligns (n : nat) (hs : option (list halign)) (vs : option (list valign)) (g : sheet) : sheet :=
  {| g_rows := g_rows g; g_cols := g_cols g; g_y := g_y g; g_x := g_x g; g_spot := g_spot g; g_hline := g_hline g; g_vline := g_vline g;
     g_h := fun x => match hs with Some l => if x <? n then nth x l HLeft else g_h g x | None => g_h g x end;
     g_v := fun x => match vs with Some l => if x <? n then nth x l VTop else g_v g x | None => g_v g x end |}.

(** Changes of a spot *)
Definition write (s : option cstr) (p : spot) : spot :=
  {| p_text := s; p_used := true; p_owner := p_owner p; p_sx := p_sx p; p_sy := p_sy p; p_left := p_left p; p_above := p_above p; p_h := p_h p; p_v := p_v p |}.
Definition with_h (h : halign) (p : spot) : spot :=
  {| p_text := p_text p; p_used := p_used p; p_owner := p_owner p; p_sx := p_sx p; p_sy := p_sy p; p_left := p_left p; p_above := p_above p; p_h := Some h; p_v := p_v p |}.
Definition with_v (v : valign) (p : spot) : spot :=
  {| p_text := p_text p; p_used := p_used p; p_owner := p_owner p; p_sx := p_sx p; p_sy := p_sy p; p_left := p_left p; p_above := p_above p; p_h := p_h p; p_v := Some v |}.
Definition with_left_line (b : border) (p : spot) : spot :=
  {| p_text := p_text p; p_used := p_used p; p_owner := p_owner p; p_sx := p_sx p; p_sy := p_sy p; p_left := Some b; p_above := p_above p; p_h := p_h p; p_v := p_v p |}.
Definition with_above_line (b : border) (p : spot) : spot :=
  {| p_text := p_text p; p_used := p_used p; p_owner := p_owner p; p_sx := p_sx p; p_sy := p_sy p; p_left := p_left p; p_above := Some b; p_h := p_h p; p_v := p_v p |}.
Definition stretched (sx sy : nat) (p : spot) : spot :=
  {| p_text := p_text p; p_used := p_used p; p_owner := p_owner p; p_sx := sx; p_sy := sy; p_left := p_left p; p_above := p_above p; p_h := p_h p; p_v := p_v p |}.
(** Covered by the cell in column [x], row [y]: no line runs through a cell. *)
Definition covered (y x i j : nat) (p : spot) : spot :=
  {| p_text := p_text p; p_used := true; p_owner := Some (x, y); p_sx := p_sx p; p_sy := p_sy p;
     p_left := if j =? x then p_left p else Some BNone; p_above := if i =? y then p_above p else Some BNone; p_h := p_h p; p_v := p_v p |}.

(** The first unused column from [x] on, or the end of the row *)
Definition next_free (g : sheet) (y x : nat) : nat :=
  match List.find (fun j => negb (p_used (g_spot g y j))) (List.seq x (TABLE_MAX_COLS - x)) with Some j => j | None => TABLE_MAX_COLS end.
(** Only the current spot *)
Definition here (g : sheet) (f : spot -> spot) : sheet := spots (fun y x p => if (y =? g_y g) && (x =? g_x g) then f p else p) g.
Definition in_row (g : sheet) (f : spot -> spot) : sheet := spots (fun y x p => if (y =? g_y g) && (x <? TABLE_MAX_COLS) then f p else p) g.
Definition if_ (b : bool) (g : sheet) : option sheet := if b then Some g else None.
Definition enough {A} (n : nat) (l : option (list A)) : bool := match l with Some l => n <=? List.length l | None => true end.
(** A call, if it may be made *)
Definition does (g : sheet) (k : call) : option sheet :=
  let y := g_y g in let x := g_x g in
  match k with
  | CPosition x' y' => if_ (x' <? TABLE_MAX_COLS) (goto y' x' g)
  | CNextRow => Some (goto (S y) (next_free g (S y) 0) g)
  | CAdd text => if_ (x <? TABLE_MAX_COLS) (goto y (next_free g y (S x)) (wide (S x) (here g (write text))))
  | CAlignments n hs vs => if_ ((n <=? TABLE_MAX_COLS) && enough n hs && enough n vs) (aligns n hs vs g)
  | CVAlign v => if_ (x <? TABLE_MAX_COLS) (here g (with_v v))
  | CHAlign h => if_ (x <? TABLE_MAX_COLS) (here g (with_h h))
  | CVAlignRow v => Some (in_row g (with_v v))
  | CHAlignRow h => Some (in_row g (with_h h))
  | CHLine b => Some (hlines (Nat.eqb y) b g)
  | CVLine i b => if_ (i <? TABLE_MAX_COLS) (vlines (Nat.eqb i) b (wide (S i) g))
  | CBoxed b =>
    let right := Nat.max 1 (g_cols g) in let last := g_rows g - 1 in
    if_ (right <? TABLE_MAX_COLS)
      (goto last right (wide (S right) (vlines (fun i => (i =? 0) || (i =? right)) b (hlines (fun i => (i =? 0) || (i =? last)) b g))))
  | CAllVLines b => Some (vlines (fun i => (0 <? i) && (i <? g_cols g)) b g)
  | CLeft b => if_ (x <? TABLE_MAX_COLS) (here g (with_left_line b))
  | CAbove b => if_ (x <? TABLE_MAX_COLS) (here g (with_above_line b))
  | CSpan sx sy =>
    if_ ((0 <? sx) && (0 <? sy) && (x + sx <=? TABLE_MAX_COLS) && (p_sx (g_spot g y x) =? 1) && (p_sy (g_spot g y x) =? 1))
      (high (y + sy) (wide (x + sx) (spots (fun i j p =>
         if (i =? y) && (j =? x) then stretched sx sy p
         else if (y <=? i) && (i <? y + sy) && (x <=? j) && (j <? x + sx) then covered y x i j p else p) g)))
  end.
(** A text is tidy; a cell is only made to span over unused spots. *)
Definition unused (p : spot) : Prop := p_used p = false /\ p_owner p = None /\ p_sx p = 1 /\ p_sy p = 1.
Definition proper (g : sheet) (k : call) : Prop :=
  match k with
  | CAdd (Some s) => tidy_text s
  | CSpan sx sy =>
    p_owner (g_spot g (g_y g) (g_x g)) = None /\
    forall i j, i < sy -> j < sx -> (i, j) <> (0, 0) -> unused (g_spot g (g_y g + i) (g_x g + j))
  | _ => True
  end.
Fixpoint does_all (g : sheet) (ks : list call) : option sheet :=
  match ks with [] => Some g | k :: ks' => match does g k with Some g' => does_all g' ks' | None => None end end.
Fixpoint proper_all (g : sheet) (ks : list call) : Prop :=
  match ks with [] => True | k :: ks' => proper g k /\ match does g k with Some g' => proper_all g' ks' | None => True end end.

(** ** A table of texts, row by row. [None]: an empty cell *)
Definition row_calls (r : list (option cstr)) : list call := map CAdd r.
Fixpoint grid_calls (M : list (list (option cstr))) : list call :=
  match M with [] => [] | [r] => row_calls r | r :: M' => row_calls r ++ CNextRow :: grid_calls M' end.
(** The alignments of the columns, set last *)
Definition alignment_call (hs : list halign) : list call := match hs with [] => [] | _ => [CAlignments (List.length hs) (Some hs) None] end.
Definition maximum (l : list nat) : nat := fold_right Nat.max 0 l.
Definition cell_lines (c : option cstr) : list cstr := match c with Some s => text_lines s | None => [] end.
Definition text_width (c : option cstr) : nat := maximum (map (visible false) (cell_lines c)).
Definition column_width (M : list (list (option cstr))) (x : nat) : nat := maximum (map (fun r => match nth_error r x with Some c => text_width c | None => 0 end) M).
Definition row_height (r : list (option cstr)) : nat := maximum (map (fun c => List.length (cell_lines c)) r).
(** Every column as wide as its widest line, every row as high as its highest text; [hs]: how the columns are aligned *)
Definition grid_picture (hs : list halign) (M : list (list (option cstr))) : list (list glyph) :=
  flat_map (fun r => map (fun k =>
    flat_map (fun x => map Char (aligned (nth x hs HLeft) (column_width M x) (match nth_error r x with Some c => nth k (cell_lines c) [] | None => [] end)))
      (List.seq 0 (maximum (map (@List.length (option cstr)) M))))
    (List.seq 0 (row_height r))) M.
Definition tidy_cell (c : option cstr) : Prop := match c with Some s => tidy_text s | None => True end.
