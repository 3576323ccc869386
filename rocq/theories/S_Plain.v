(** The picture of a sheet without lines and spanning cells: C69. *)
From Coq Require Import List Ascii String NArith ZArith Bool Lia Arith.
From Verif Require Import M_Base M_StringUtil M_Table S_Util S_Table S_TableApi.
Import ListNotations.
Open Scope nat_scope.

(** Texts, rows, positions and alignments: no lines, no cells over several rows or columns *)
Definition plain (k : call) : Prop :=
  match k with
  | CPosition _ _ | CNextRow | CAdd None | CAlignments _ _ _ | CVAlign _ | CHAlign _ | CVAlignRow _ | CHAlignRow _ => True
  | CAdd (Some s) => tidy_text s
  | _ => False
  end.
Definition sheet_width (g : sheet) (x : nat) : nat := maximum (map (fun y => text_width (p_text (g_spot g y x))) (List.seq 0 (g_rows g))).
Definition sheet_height (g : sheet) (y : nat) : nat := maximum (map (fun x => List.length (cell_lines (p_text (g_spot g y x)))) (List.seq 0 (g_cols g))).
(** Every column as wide as its widest line, every row as high as its highest text. A text stands where its own alignment
    says; if it has none, where that of its column says. *)
Definition sheet_picture (g : sheet) : list (list glyph) :=
  flat_map (fun y => map (fun k =>
    flat_map (fun x => let p := g_spot g y x in
        map Char (aligned (setting (p_h p) (g_h g x)) (sheet_width g x) (line_of (setting (p_v p) (g_v g x)) (sheet_height g y) (cell_lines (p_text p)) k)))
      (List.seq 0 (g_cols g)))
    (List.seq 0 (sheet_height g y))) (List.seq 0 (g_rows g)).
