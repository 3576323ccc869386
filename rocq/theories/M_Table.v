(** Model of the table library: src/table/table.c and table.h. A table is built by the calls of table.h and printed by
    fprint_table. Rows are a list (linked list in C), cells a list of TABLE_MAX_COLS per row, a pointer to a cell is its
    position. The lifetimes of cell texts (text_needs_free, free_table) are not modelled; add_cells, add_cell_gc,
    add_cell_fmt, add_cell_vfmt and add_cells_from_array are sequences of the calls below (table.c:738-806). Widths and
    heights are naturals: sizes are assumed to stay below 2^31 (table.c:161, 206 convert them to int). *)
From Coq Require Import List Ascii String NArith ZArith Bool Lia Arith.
From Verif Require Import M_Base M_StringUtil M_Eval.
Import ListNotations.
Open Scope nat_scope.
Open Scope res_scope.

(** table.h:6 *)
Definition TABLE_MAX_COLS : nat := 11.
(** table.h:8-27 *)
Inductive border := BNone | BSingle | BDouble.
Inductive halign := HLeft | HRight | HCenter.
Inductive valign := VTop | VBottom | VCenter.
Definition is_none (b : border) : bool := match b with BNone => true | _ => false end.

(** table.c:14-40. A setting and its "override" flag are one option: the setting is only read if the flag is set. *)
Record cell := {
  c_text : option cstr; c_height : nat; c_width : nat;
  c_h : option halign; c_v : option valign; c_left : option border; c_above : option border;
  c_sx : nat; c_sy : nat; c_set : bool; c_x : nat; c_y : nat;
  c_parent : option (nat * nat)                                    (* column, row *) }.
(** table.c:42-48 *)
Record row := { r_cells : list cell; r_above : border; r_count : nat }.
(** table.c:50-61 *)
Record table := {
  t_cols : nat; t_rows : list row; t_row : nat; t_col : nat;
  t_left : list border; t_h : list halign; t_v : list valign; t_counts : list nat }.

Definition update {A} (n : nat) (f : A -> A) (l : list A) : list A :=
  match nth_error l n with Some a => firstn n l ++ f a :: skipn (S n) l | None => l end.
(** Element of an array *)
Definition at_ {A} (l : list A) (n : nat) : res A := match nth_error l n with Some a => Ok a | None => Ub end.

Definition num_rows (t : table) : nat := List.length (t_rows t).
Definition the_cell (t : table) (y x : nat) : res cell := r <- at_ (t_rows t) y ;; at_ (r_cells r) x.
(** &table->curr_row->cells[table->curr_col] (table.c:541-544) *)
Definition curr_cell (t : table) : res cell := the_cell t (t_row t) (t_col t).

Definition with_cells (f : list cell -> list cell) (r : row) : row := {| r_cells := f (r_cells r); r_above := r_above r; r_count := r_count r |}.
Definition with_rows (f : list row -> list row) (t : table) : table :=
  {| t_cols := t_cols t; t_rows := f (t_rows t); t_row := t_row t; t_col := t_col t; t_left := t_left t; t_h := t_h t; t_v := t_v t; t_counts := t_counts t |}.
Definition set_cell (y x : nat) (f : cell -> cell) (t : table) : table := with_rows (update y (with_cells (update x f))) t.
Definition with_cols (n : nat) (t : table) : table :=
  {| t_cols := n; t_rows := t_rows t; t_row := t_row t; t_col := t_col t; t_left := t_left t; t_h := t_h t; t_v := t_v t; t_counts := t_counts t |}.
Definition at_position (y x : nat) (t : table) : table :=
  {| t_cols := t_cols t; t_rows := t_rows t; t_row := y; t_col := x; t_left := t_left t; t_h := t_h t; t_v := t_v t; t_counts := t_counts t |}.
Definition with_counts (f : list nat -> list nat) (t : table) : table :=
  {| t_cols := t_cols t; t_rows := t_rows t; t_row := t_row t; t_col := t_col t; t_left := t_left t; t_h := t_h t; t_v := t_v t; t_counts := f (t_counts t) |}.
Definition with_left (f : list border -> list border) (t : table) : table :=
  {| t_cols := t_cols t; t_rows := t_rows t; t_row := t_row t; t_col := t_col t; t_left := f (t_left t); t_h := t_h t; t_v := t_v t; t_counts := t_counts t |}.
Definition with_aligns (h : list halign) (v : list valign) (t : table) : table :=
  {| t_cols := t_cols t; t_rows := t_rows t; t_row := t_row t; t_col := t_col t; t_left := t_left t; t_h := h; t_v := v; t_counts := t_counts t |}.

(** ** Texts *)
(** table.c:109-124. Reads until NUL or newline; [skip_ansi] skips one colour sequence. *)
Fixpoint console_loop (fuel : nat) (s : cstr) (n : nat) : res nat :=
  match fuel with
  | 0 => Ok n                                                      (* not reached: every turn shortens the text *)
  | S f =>
    match s with
    | [] => Ok n
    | c :: s' => if ceqb c LF then Ok n else r <- skip_ansi s' ;; console_loop f r (S n)
    end
  end.
Definition console_strlen (s : cstr) : res nat := r <- skip_ansi s ;; console_loop (S (List.length s)) r 0.
(** table.c:126-141 *)
Definition get_text_height (s : option cstr) : nat :=
  match s with None => 0 | Some s => S (List.length (filter (fun c => ceqb c LF) s)) end.
(** table.c:143-155. The variable "line" has no value if the line is not found. *)
Fixpoint width_loop (s : cstr) (is : list nat) (w : nat) : res nat :=
  match is with
  | [] => Ok w
  | i :: is' =>
    match get_line_of_string s i with
    | Some (line, _) => n <- console_strlen line ;; width_loop s is' (if w <? n then n else w)
    | None => Ub
    end
  end.
Definition get_text_width (s : option cstr) : res nat :=
  match s with None => Ok 0 | Some t => width_loop t (seq 0 (get_text_height s)) 0 end.

(** ** Building a table *)
(** table.c:502-526 *)
Definition fresh_cell (y x : nat) : cell :=
  {| c_text := None; c_height := 0; c_width := 0; c_h := None; c_v := None; c_left := None; c_above := None;
     c_sx := 1; c_sy := 1; c_set := false; c_x := x; c_y := y; c_parent := None |}.
Definition malloc_row (y : nat) : row := {| r_cells := map (fresh_cell y) (seq 0 TABLE_MAX_COLS); r_above := BNone; r_count := 0 |}.
(** table.c:528-538. The new row becomes the last one. *)
Definition append_row (t : table) : table := with_rows (fun rs => rs ++ [malloc_row (List.length rs)]) t.
(** table.c:659-675 *)
Definition get_empty_table : table :=
  {| t_cols := 0; t_rows := [malloc_row 0]; t_row := 0; t_col := 0; t_left := repeat BNone TABLE_MAX_COLS;
     t_h := repeat HLeft TABLE_MAX_COLS; t_v := repeat VTop TABLE_MAX_COLS; t_counts := repeat 0 TABLE_MAX_COLS |}.

(** table.c:695-712 *)
Definition set_position (t : table) (x y : nat) : res table :=
  if x <? TABLE_MAX_COLS then
    if y <? num_rows t then Ok (at_position y x t)
    else Ok (at_position y x (Nat.iter (S y - num_rows t) append_row t))
  else Halt.
(** The first column from [x] on that is not set (table.c:484-487, 730-733) *)
Fixpoint skip_set (cs : list cell) (x : nat) : nat :=
  match cs with c :: cs' => if c_set c then skip_set cs' (S x) else x | [] => x end.
(** table.c:717-735 *)
Definition next_row (t : table) : res table :=
  match nth_error (t_rows t) (S (t_row t)) with
  | None => let t' := append_row t in Ok (at_position (List.length (t_rows t)) 0 t')
  | Some r => Ok (at_position (S (t_row t)) (skip_set (r_cells r) 0) t)
  end.
Definition put_text (text : option cstr) (h w : nat) (c : cell) : cell :=
  {| c_text := text; c_height := h; c_width := w; c_h := c_h c; c_v := c_v c; c_left := c_left c; c_above := c_above c;
     c_sx := c_sx c; c_sy := c_sy c; c_set := true; c_x := c_x c; c_y := c_y c; c_parent := c_parent c |}.
(** table.c:470-488: add_text_cell, behind add_cell (a text) and add_empty_cell (no text) *)
Definition add_text_cell (t : table) (text : option cstr) : res table :=
  c <- curr_cell t ;;
  w <- get_text_width text ;;
  let t1 := set_cell (t_row t) (t_col t) (put_text text (get_text_height text) w) t in
  let t2 := if t_cols t1 <=? t_col t1 then with_cols (t_col t1 + 1) t1 else t1 in
  r <- at_ (t_rows t2) (t_row t2) ;;
  Ok (at_position (t_row t2) (skip_set (skipn (t_col t2) (r_cells r)) (t_col t2)) t2).

(** table.c:811-823 *)
Definition set_default_alignments (t : table) (n : nat) (hs : option (list halign)) (vs : option (list valign)) : res table :=
  if n <=? TABLE_MAX_COLS then
    let over {A} (new : option (list A)) (old : list A) : res (list A) :=
      match new with None => Ok old | Some l => if List.length l <? n then Ub else Ok (firstn n l ++ skipn n old) end in
    h <- over hs (t_h t) ;; v <- over vs (t_v t) ;; Ok (with_aligns h v t)
  else Halt.
Definition put_h (h : halign) (c : cell) : cell :=
  {| c_text := c_text c; c_height := c_height c; c_width := c_width c; c_h := Some h; c_v := c_v c; c_left := c_left c; c_above := c_above c;
     c_sx := c_sx c; c_sy := c_sy c; c_set := c_set c; c_x := c_x c; c_y := c_y c; c_parent := c_parent c |}.
Definition put_v (v : valign) (c : cell) : cell :=
  {| c_text := c_text c; c_height := c_height c; c_width := c_width c; c_h := c_h c; c_v := Some v; c_left := c_left c; c_above := c_above c;
     c_sx := c_sx c; c_sy := c_sy c; c_set := c_set c; c_x := c_x c; c_y := c_y c; c_parent := c_parent c |}.
Definition put_left (b : border) (c : cell) : cell :=
  {| c_text := c_text c; c_height := c_height c; c_width := c_width c; c_h := c_h c; c_v := c_v c; c_left := Some b; c_above := c_above c;
     c_sx := c_sx c; c_sy := c_sy c; c_set := c_set c; c_x := c_x c; c_y := c_y c; c_parent := c_parent c |}.
Definition put_above (b : border) (c : cell) : cell :=
  {| c_text := c_text c; c_height := c_height c; c_width := c_width c; c_h := c_h c; c_v := c_v c; c_left := c_left c; c_above := Some b;
     c_sx := c_sx c; c_sy := c_sy c; c_set := c_set c; c_x := c_x c; c_y := c_y c; c_parent := c_parent c |}.
Definition put_span (sx sy : nat) (c : cell) : cell :=
  {| c_text := c_text c; c_height := c_height c; c_width := c_width c; c_h := c_h c; c_v := c_v c; c_left := c_left c; c_above := c_above c;
     c_sx := sx; c_sy := sy; c_set := c_set c; c_x := c_x c; c_y := c_y c; c_parent := c_parent c |}.
Definition put_child (p : nat * nat) (c : cell) : cell :=
  {| c_text := c_text c; c_height := c_height c; c_width := c_width c; c_h := c_h c; c_v := c_v c; c_left := c_left c; c_above := c_above c;
     c_sx := c_sx c; c_sy := c_sy c; c_set := true; c_x := c_x c; c_y := c_y c; c_parent := Some p |}.

(** Change the current cell *)
Definition override (f : cell -> cell) (t : table) : res table := c <- curr_cell t ;; Ok (set_cell (t_row t) (t_col t) f t).
(** table.c:828-838 *)
Definition override_horizontal_alignment (t : table) (h : halign) : res table := override (put_h h) t.
Definition override_vertical_alignment (t : table) (v : valign) : res table := override (put_v v) t.
(** table.c:843-859 *)
Definition override_horizontal_alignment_of_row (t : table) (h : halign) : res table := Ok (with_rows (update (t_row t) (with_cells (map (put_h h)))) t).
Definition override_vertical_alignment_of_row (t : table) (v : valign) : res table := Ok (with_rows (update (t_row t) (with_cells (map (put_v v)))) t).
(** A counter of lines: one less if a line was there, one more if there will be one. The counters do not fall below
    zero (C68, L_TableCount.v). *)
Definition recount (was now : border) (n : nat) : nat :=
  let n := if is_none was then n else pred n in if is_none now then n else S n.
Definition set_above (b : border) (r : row) : row := {| r_cells := r_cells r; r_above := b; r_count := recount (r_above r) b (r_count r) |}.
Definition count_above (was now : border) (r : row) : row := {| r_cells := r_cells r; r_above := r_above r; r_count := recount was now (r_count r) |}.
(** table.c:861-873 *)
Definition set_hline (t : table) (b : border) : res table := r <- at_ (t_rows t) (t_row t) ;; Ok (with_rows (update (t_row t) (set_above b)) t).
(** table.c:875-894 *)
Definition set_vline (t : table) (i : nat) (b : border) : res table :=
  if i <? TABLE_MAX_COLS then
    old <- at_ (t_left t) i ;;
    let t1 := if t_cols t <=? i then with_cols (i + 1) t else t in
    Ok (with_left (update i (fun _ => b)) (with_counts (update i (recount old b)) t1))
  else Halt.
(** table.c:896-905 *)
Definition make_boxed (t : table) (b : border) : res table :=
  t1 <- set_position t 0 0 ;; t2 <- set_vline t1 0 b ;; t3 <- set_hline t2 b ;;
  t4 <- set_position t3 (t_cols t3) (num_rows t3 - 1) ;; t5 <- set_vline t4 (t_cols t4) b ;; set_hline t5 b.
Definition overridden (o : option border) : border := match o with Some b => b | None => BNone end.
(** table.c:907-939 *)
Definition override_left_border (t : table) (b : border) : res table :=
  c <- curr_cell t ;; Ok (set_cell (t_row t) (t_col t) (put_left b) (with_counts (update (t_col t) (recount (overridden (c_left c)) b)) t)).
Definition override_above_border (t : table) (b : border) : res table :=
  c <- curr_cell t ;; Ok (set_cell (t_row t) (t_col t) (put_above b) (with_rows (update (t_row t) (count_above (overridden (c_above c)) b)) t)).

(** table.c:963-989: the cells of one row of a span, from column [x]+j on. The second component is the column of the clash, if any. *)
Definition child_borders (i j : nat) (c : cell) : cell :=
  let c1 := if j =? 0 then c else put_left BNone c in if i =? 0 then c1 else put_above BNone c1.
Fixpoint span_cols (t : table) (y x i : nat) (js : list nat) : res (table * option nat) :=
  match js with
  | [] => Ok (t, None)
  | j :: js' =>
    if (i =? 0) && (j =? 0) then span_cols t y x i js'
    else
      c <- the_cell t (y + i) (x + j) ;;
      if c_set c then Ok (t, Some j)
      else span_cols (set_cell (y + i) (x + j) (fun c => child_borders i j (put_child (x, y) c)) t) y x i js'
  end.
(** table.c:959-1004. Rows are appended when the span needs them. *)
Fixpoint span_rows (t : table) (y x sx sy : nat) (is : list nat) : res table :=
  match is with
  | [] => Ok t
  | i :: is' =>
    ' (t1, clash) <- span_cols t y x i (seq 0 sx) ;;
    match clash with
    | Some j => Ok (set_cell y x (put_span j i) t1)
    | None => span_rows (if (S i <? sy) && (num_rows t1 <=? S (y + i)) then append_row t1 else t1) y x sx sy is'
    end
  end.
(** table.c:945-1005 *)
Definition set_span (t : table) (sx sy : nat) : res table :=
  if (sx =? 0) || (sy =? 0) || (TABLE_MAX_COLS <? t_col t + sx) then Halt
  else
    c <- curr_cell t ;;
    if (c_sx c =? 1) && (c_sy c =? 1) then
      span_rows (with_cols (Nat.max (t_col t + sx) (t_cols t)) (set_cell (t_row t) (t_col t) (put_span sx sy) t)) (t_row t) (t_col t) sx sy (seq 0 sy)
    else Halt.
(** table.c:1007-1017 *)
Fixpoint set_vlines (t : table) (is : list nat) (b : border) : res table :=
  match is with [] => Ok t | i :: is' => t' <- set_vline t i b ;; set_vlines t' is' b end.
Definition set_all_vlines (t : table) (b : border) : res table := set_vlines t (seq 1 (t_cols t - 1)) b.

(** The calls of table.h *)
Inductive call :=
| CPosition (x y : nat) | CNextRow | CAdd (text : option cstr)
| CAlignments (n : nat) (hs : option (list halign)) (vs : option (list valign))
| CVAlign (v : valign) | CHAlign (h : halign) | CVAlignRow (v : valign) | CHAlignRow (h : halign)
| CHLine (b : border) | CVLine (i : nat) (b : border) | CBoxed (b : border) | CAllVLines (b : border)
| CLeft (b : border) | CAbove (b : border) | CSpan (sx sy : nat).
Definition exec_call (t : table) (c : call) : res table :=
  match c with
  | CPosition x y => set_position t x y
  | CNextRow => next_row t
  | CAdd text => add_text_cell t text
  | CAlignments n hs vs => set_default_alignments t n hs vs
  | CVAlign v => override_vertical_alignment t v
  | CHAlign h => override_horizontal_alignment t h
  | CVAlignRow v => override_vertical_alignment_of_row t v
  | CHAlignRow h => override_horizontal_alignment_of_row t h
  | CHLine b => set_hline t b
  | CVLine i b => set_vline t i b
  | CBoxed b => make_boxed t b
  | CAllVLines b => set_all_vlines t b
  | CLeft b => override_left_border t b
  | CAbove b => override_above_border t b
  | CSpan sx sy => set_span t sx sy
  end.
Fixpoint exec_calls (t : table) (cs : list call) : res table :=
  match cs with [] => Ok t | c :: cs' => t' <- exec_call t c ;; exec_calls t' cs' end.

(** ** Widths and heights *)
(** table.c:63-69 *)
Record constraint := { k_from : nat; k_to : nat; k_min : nat }.
Definition sum (l : list nat) : nat := fold_right Nat.add 0 l.
(** vars[from] + ... + vars[to-1] *)
Definition sum_between (vars : list nat) (from to : nat) : nat := sum (firstn (to - from) (skipn from vars)).
(** table.c:558-566 *)
Definition needed_to_satisfy (k : constraint) (vars : list nat) : nat := k_min k - sum_between vars (k_from k) (k_to k).
(** table.c:571-581: cells in one column *)
Definition satisfy_single (k : constraint) (vars : list nat) : list nat :=
  if k_to k - k_from k =? 1 then update (k_from k) (fun v => if v <? k_min k then k_min k else v) vars else vars.
(** table.c:591-597 *)
Definition widen (from needed length : nat) (vars : list nat) (j : nat) : list nat :=
  update (from + j) (fun v => v + needed / length + (if j <? needed mod length then 1 else 0)) vars.
Definition satisfy_span (k : constraint) (vars : list nat) : list nat :=
  let needed := needed_to_satisfy k vars in
  let length := k_to k - k_from k in
  if (0 <? needed) && (0 <? length) then fold_left (widen (k_from k) needed length) (seq 0 length) vars else vars.
(** table.c:569-600 *)
Definition satisfy_constraints (ks : list constraint) (vars : list nat) : list nat :=
  fold_left (fun vs k => satisfy_span k vs) ks (fold_left (fun vs k => satisfy_single k vs) ks vars).

(** table.c:615-622: one less for every vertical line inside the cell *)
Fixpoint weaken (min : nat) (lines : list bool) : nat :=
  match min, lines with
  | 0, _ | _, [] => min
  | S m, l :: ls => weaken (if l then m else min) ls
  end.
Definition has_vline (t : table) (j : nat) : bool := match nth_error (t_counts t) j with Some n => 0 <? n | None => false end.
Definition has_hline (t : table) (y : nat) : bool := match nth_error (t_rows t) y with Some r => 0 <? r_count r | None => false end.
Definition constrained (c : cell) : bool := c_set c && match c_parent c with None => true | Some _ => false end.
Definition width_constraint (t : table) (i : nat) (c : cell) : constraint :=
  {| k_from := i; k_to := i + c_sx c; k_min := weaken (c_width c) (map (has_vline t) (seq (S i) (c_sx c - 1))) |}.
(** table.c:643-651; a row that does not exist ends the loop *)
Definition height_constraint (t : table) (y : nat) (c : cell) : constraint :=
  {| k_from := y; k_to := y + c_sy c; k_min := weaken (c_height c) (map (has_hline t) (seq (S y) (Nat.min (c_sy c - 1) (num_rows t - S y)))) |}.
(** Set cells without a parent in the first [t_cols] columns, with row and column (table.c:606-613, 635-642) *)
Definition row_places (n y : nat) (r : row) : list (nat * nat * cell) :=
  map (fun '(i, c) => (y, i, c)) (filter (fun '(_, c) => constrained c) (combine (seq 0 n) (r_cells r))).
Definition places (t : table) : list (nat * nat * cell) :=
  List.concat (map (fun '(y, r) => row_places (t_cols t) y r) (combine (seq 0 (num_rows t)) (t_rows t))).
(** table.c:602-657. The array of constraints has room for all cells; the columns of a span must exist. *)
Definition get_dimensions (t : table) : res (list nat * list nat) :=
  let ws := map (fun '(_, i, c) => width_constraint t i c) (places t) in
  let hs := map (fun '(y, _, c) => height_constraint t y c) (places t) in
  if forallb (fun k => k_to k <=? t_cols t) ws && forallb (fun k => k_to k <=? num_rows t) hs
  then Ok (satisfy_constraints ws (repeat 0 (t_cols t)), satisfy_constraints hs (repeat 0 (num_rows t)))
  else Ub.

(** ** Printing *)
(** Output: a character of the border matrices (table.c:71-83, double or not, and its index), or bytes. *)
Inductive seg := Box (double : bool) (index : nat) | Bytes (s : cstr).
Definition HLINE_INDEX : nat := 9.
Definition VLINE_INDEX : nat := 10.
Definition BORDER_LOOKUP : list nat := [11; 11; 11; 6; 11; 10; 0; 3; 11; 8; 9; 7; 2; 5; 1; 4].
Definition spaces (n : nat) : cstr := repeat " "%char n.
(** fprintf("%*s", n, ""): a negative width means flush left *)
Definition blank (n : Z) : seg := Bytes (spaces (Z.to_nat (Z.abs n))).
(** fprintf("%*.*s", n, ...), flush right or left *)
Definition padded (left : bool) (n : Z) (s : cstr) : seg :=
  let pad := spaces (Z.to_nat (Z.abs n) - List.length s) in
  if left || (n <? 0)%Z then Bytes (s ++ pad) else Bytes (pad ++ s).
(** Conversion of a size_t to int *)
Definition size_to_int (z : Z) : Z := let m := (z mod 2 ^ 32)%Z in if (m <? 2 ^ 31)%Z then m else (m - 2 ^ 32)%Z.
Definition size_sub (a b : Z) : Z := ((a - b) mod 2 ^ 64)%Z.

(** table.c:96-107: settings are those of the outermost cell. A parent stands further left or further up. *)
Fixpoint outermost (fuel : nat) (t : table) (c : cell) : cell :=
  match fuel with
  | 0 => c
  | S f => match c_parent c with Some (x, y) => match the_cell t y x with Ok p => outermost f t p | _ => c end | None => c end
  end.
Definition get_h_align (t : table) (default : halign) (c : cell) : halign :=
  match c_h (outermost (S (c_x c + c_y c)) t c) with Some h => h | None => default end.
Definition get_v_align (t : table) (default : valign) (c : cell) : valign :=
  match c_v (outermost (S (c_x c + c_y c)) t c) with Some v => v | None => default end.
(** The cell itself or its parent *)
Definition base (t : table) (c : cell) : res cell := match c_parent c with Some (x, y) => the_cell t y x | None => Ok c end.

(** table.c:162-241 *)
Definition print_text (t : table) (c0 : cell) (dh : halign) (dv : valign) (line total_width total_height : nat) : res (list seg) :=
  c <- base t c0 ;;
  let free := size_sub (Z.of_nat total_height) (Z.of_nat (c_height c)) in
  let actual := match get_v_align t dv c with
                | VTop => size_to_int (Z.of_nat line)
                | VCenter => size_to_int (size_sub (Z.of_nat line) (free / 2)%Z)
                | VBottom => size_to_int (size_sub (Z.of_nat line) free)
                end in
  let found := if (0 <=? actual)%Z then match c_text c with Some s => get_line_of_string s (Z.to_nat actual) | None => None end else None in
  match found with
  | None => Ok [blank (Z.of_nat total_width)]
  | Some (s, bytes) =>
    len <- console_strlen s ;;
    let w := Z.of_nat total_width in
    let free := (w - Z.of_nat len)%Z in
    let adjusted := (w + Z.of_nat bytes - Z.of_nat len)%Z in
    match get_h_align t dh c with
    | HLeft => Ok [padded true adjusted (firstn bytes s)]
    | HRight => Ok [padded false adjusted (firstn bytes s)]
    | HCenter =>
      let padding := Z.quot free 2 in
      Ok [blank padding; Bytes (firstn bytes s); blank (if (Z.rem free 2 =? 0)%Z then padding else (padding + 1)%Z)]
    end
  end.

(** table.c:243-254. The test for an inner border looks at the column to the right of the one it should look at. *)
Fixpoint add_widths (t : table) (ws : list nat) (x : nat) (is : list nat) : res nat :=
  match is with
  | [] => Ok 0
  | i :: is' =>
    b <- (if i =? 0 then Ok 0 else n <- at_ (t_counts t) (x + i + 1) ;; Ok (if 0 <? n then 1 else 0)) ;;
    w <- at_ ws (x + i) ;; rest <- add_widths t ws x is' ;; Ok (b + w + rest)
  end.
Definition get_total_width (t : table) (ws : list nat) (c0 : cell) : res nat :=
  c <- base t c0 ;; add_widths t ws (c_x c) (seq 0 (c_sx c)).
(** table.c:256-269 *)
Fixpoint add_heights (t : table) (hs : list nat) (y : nat) (is : list nat) : res nat :=
  match is with
  | [] => Ok 0
  | i :: is' =>
    b <- (if i =? 0 then Ok 0 else r <- at_ (t_rows t) (y + i) ;; Ok (if 0 <? r_count r then 1 else 0)) ;;
    h <- at_ hs (y + i) ;; rest <- add_heights t hs y is' ;; Ok (b + h + rest)
  end.
Definition get_total_height (t : table) (hs : list nat) (c0 : cell) : res nat :=
  c <- base t c0 ;; add_heights t hs (c_y c) (seq 0 (c_sy c)).
(** table.c:271-281 *)
Definition get_span_x (t : table) (c0 : cell) : res nat := c <- base t c0 ;; Ok (c_sx c).
(** table.c:283-305 *)
Definition get_border_above (default : border) (c : cell) : border := match c_above c with Some b => b | None => default end.
Definition get_border_left (default : border) (c : cell) : border := match c_left c with Some b => b | None => default end.

(** table.c:307-366 *)
Definition count_if (p : border -> bool) (l : list border) : nat := List.length (filter p l).
Definition is_single (b : border) : bool := match b with BSingle => true | _ => false end.
Definition is_double (b : border) : bool := match b with BDouble => true | _ => false end.
Definition bit (b : border) (n : nat) : nat := if is_none b then 0 else n.
Definition intersection (default_left default_above : border) (right_above left_below right_below : option cell) : seg :=
  let above := match right_above with Some c => get_border_left default_left c | None => BNone end in
  let right := match right_below with Some c => get_border_above default_above c | None => BNone end in
  let below := match right_below with Some c => get_border_left default_left c | None => BNone end in
  let left := match left_below with Some c => get_border_above default_above c | None => BNone end in
  let all := [above; right; below; left] in
  let index := bit above 1 + bit right 2 + bit below 4 + bit left 8 in
  Box (count_if is_single all <? count_if is_double all) (nth index BORDER_LOOKUP 0).

(** Outcome of printing: it may also never end. *)
Definition step A := run (res A).
Definition then_ {A B} (x : step A) (f : A -> step B) : step B :=
  match x with Done (Ok a) => f a | Done Ub => Done Ub | Done Halt => Done Halt | Forever => Forever end.
Definition lift {A} (x : res A) : step A := Done x.

Definition hline (b : border) (w : nat) : list seg :=
  match b with BNone => [Bytes (spaces w)] | BSingle => repeat (Box false HLINE_INDEX) w | BDouble => repeat (Box true HLINE_INDEX) w end.
Definition vline (b : border) : seg := match b with BNone => Bytes [" "%char] | BSingle => Box false VLINE_INDEX | BDouble => Box true VLINE_INDEX end.

Section Print.
Variable t : table.
Variable ws hs : list nat.

(** table.c:369-423, from column [i] on. [lines]: line_indices. A span of no columns sends the loop back to the same column for ever. *)
Fixpoint border_loop (fuel : nat) (above : option row) (below : row) (lines : list nat) (i : nat) : step (list seg * list nat) :=
  match fuel with
  | 0 => Done (Ok ([], lines))
  | S f =>
    if i <? t_cols t then
      then_ (lift (at_ (r_cells below) i)) (fun c =>
      then_ (lift (cnt <- at_ (t_counts t) i ;; dl <- at_ (t_left t) i ;;
                   Ok (if 0 <? cnt then [intersection dl (r_above below)
                                           (match above with Some r => nth_error (r_cells r) i | None => None end)
                                           (match i with 0 => None | S i' => nth_error (r_cells below) i' end) (Some c)] else []))) (fun cross =>
      match c_parent c with
      | Some (px, py) =>
        if py =? c_y c then
          then_ (lift (at_ ws i)) (fun w =>
          then_ (border_loop f above below lines (S i)) (fun '(rest, lines') => Done (Ok (cross ++ hline (get_border_above (r_above below) c) w ++ rest, lines'))))
        else
          then_ (lift (the_cell t py px)) (fun p =>
          then_ (lift (dh <- at_ (t_h t) i ;; dv <- at_ (t_v t) i ;; l <- at_ lines i ;; w <- get_total_width t ws p ;; h <- get_total_height t hs p ;;
                       print_text t p dh dv l w h)) (fun text =>
          match c_sx p with
          | 0 => Forever
          | S _ =>
            then_ (border_loop f above below (update i S lines) (i + c_sx p)) (fun '(rest, lines') => Done (Ok (cross ++ text ++ rest, lines')))
          end))
      | None =>
        then_ (lift (at_ ws i)) (fun w =>
        then_ (border_loop f above below lines (S i)) (fun '(rest, lines') => Done (Ok (cross ++ hline (get_border_above (r_above below) c) w ++ rest, lines'))))
      end))
    else Done (Ok ([], lines))
  end.
(** table.c:1084-1113: one line of a row, from column [k] on *)
Fixpoint content_loop (fuel : nat) (r : row) (lines : list nat) (k : nat) : step (list seg * list nat) :=
  match fuel with
  | 0 => Done (Ok ([], lines))
  | S f =>
    if k <? t_cols t then
      then_ (lift (at_ (r_cells r) k)) (fun c =>
      then_ (lift (cnt <- at_ (t_counts t) k ;; dl <- at_ (t_left t) k ;; Ok (if 0 <? cnt then [vline (get_border_left dl c)] else []))) (fun bar =>
      then_ (lift (dh <- at_ (t_h t) k ;; dv <- at_ (t_v t) k ;; l <- at_ lines k ;; w <- get_total_width t ws c ;; h <- get_total_height t hs c ;;
                   print_text t c dh dv l w h)) (fun text =>
      then_ (lift (get_span_x t c)) (fun sx =>
      match sx with
      | 0 => Forever
      | S _ => then_ (content_loop f r (update k S lines) (k + sx)) (fun '(rest, lines') => Done (Ok (bar ++ text ++ rest, lines')))
      end))))
    else Done (Ok ([], lines))
  end.
Fixpoint content_lines (n : nat) (r : row) (lines : list nat) : step (list (list seg) * list nat) :=
  match n with
  | 0 => Done (Ok ([], lines))
  | S n' =>
    then_ (content_loop (t_cols t) r lines 0) (fun '(line, l1) =>
    then_ (content_lines n' r l1) (fun '(rest, l2) => Done (Ok (line :: rest, l2))))
  end.
(** table.c:1074-1082: cells that begin in this row start with their first line. *)
Definition restart (r : row) (lines : list nat) : list nat :=
  map (fun '(c, l) => match c_parent c with Some (_, py) => if py =? c_y c then 0 else l | None => 0 end) (combine (r_cells r) lines).
(** table.c:1066-1119 *)
Fixpoint print_rows (prev : option row) (rs : list row) (heights : list nat) (lines : list nat) : step (list (list seg)) :=
  match rs, heights with
  | [], _ => Done (Ok [])
  | r :: rs', h :: heights' =>
    then_ (if 0 <? r_count r then then_ (border_loop (t_cols t) prev r lines 0) (fun '(line, l) => Done (Ok ([line], l))) else Done (Ok ([], lines))) (fun '(top, l1) =>
    then_ (content_lines h r (restart r l1)) (fun '(body, l2) =>
    then_ (print_rows (Some r) rs' heights' l2) (fun rest => Done (Ok (top ++ body ++ rest)))))
  | _ :: _, [] => Done Ub
  end.
End Print.

(** table.c:425-468 *)
Fixpoint blank_above (t : table) (ys : list nat) : res table :=
  match ys with [] => Ok t | y :: ys' => t' <- override_above_border (at_position y (t_cols t - 1) t) BNone ;; blank_above t' ys' end.
Fixpoint blank_left (t : table) (xs : list nat) : res table :=
  match xs with [] => Ok t | x :: xs' => t' <- override_left_border (at_position (t_row t) x t) BNone ;; blank_left t' xs' end.
Definition override_superfluous_lines (t : table) (last_width last_height : nat) : res table :=
  t1 <- (if last_width =? 0 then blank_above t (seq 0 (num_rows t)) else Ok (at_position (num_rows t - 1) (t_col t) t)) ;;
  if last_height =? 0 then blank_left t1 (seq 0 (t_cols t1)) else Ok t1.

(** table.c:1046-1121. The table is changed by printing (override_superfluous_lines). *)
Definition fprint_table (t : table) : step (table * list (list seg)) :=
  if t_cols t =? 0 then Done (Ok (t, []))
  else
    then_ (lift (get_dimensions t)) (fun '(ws, hs) =>
    then_ (lift (w <- at_ ws (t_cols t - 1) ;; h <- at_ hs (num_rows t - 1) ;; override_superfluous_lines t w h)) (fun t' =>
    then_ (print_rows t' ws hs None (t_rows t') hs (repeat 0 (t_cols t'))) (fun out => Done (Ok (t', out))))).
