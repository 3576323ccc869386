(** Model of src/util/string_util.c. *)
From Coq Require Import List Ascii String NArith ZArith Bool Lia.
From Verif Require Import M_Base.
Import ListNotations.
Open Scope char_scope.
Open Scope res_scope.

(** string_util.c:11-14 *)
Definition is_space (c : ascii) : bool := ceqb c " ".

(** string_util.c:16-19. Range tests are made on the code 0..255; bytes above 127 are
    negative as signed char and satisfy none of the tests in either reading. *)
Definition is_digit (c : ascii) : bool :=
  ((code "0" <=? code c)%N && (code c <=? code "9")%N) || ceqb c ".".

(** string_util.c:21-28 *)
Definition is_letter (c : ascii) : bool :=
  ((code "A" <=? code c)%N && (code c <=? code "Z")%N)
  || ((code "a" <=? code c)%N && (code c <=? code "z")%N)
  || ceqb c "_" || ceqb c "[" || ceqb c "]".

(** string_util.c:30-33 *)
Definition is_opening_parenthesis (c : cstr) : bool :=
  streqb c (str "(") || streqb c (str "{").

(** string_util.c:35-38 *)
Definition is_closing_parenthesis (c : cstr) : bool :=
  streqb c (str ")") || streqb c (str "}").

(** string_util.c:40-43 *)
Definition is_delimiter (c : cstr) : bool := streqb c (str ",").

(** strncmp(a, b, n) == 0 for strings at least n long or ending before *)
Fixpoint strneqb (n : nat) (a b : cstr) : bool :=
  match n with
  | 0 => true
  | S n' =>
    match a, b with
    | [], [] => true
    | x :: a', y :: b' => ceqb x y && strneqb n' a' b'
    | _, _ => false
    end
  end.

(** string_util.c:45-51 *)
Definition begins_with (prefix s : cstr) : bool :=
  if (List.length s <? List.length prefix)%nat then false
  else strneqb (List.length prefix) prefix s.

(** libc strstr: offset of the first occurrence of [d] in [s] (NULL is [None]); [d] empty gives 0. *)
Fixpoint strstr (s d : cstr) : option nat :=
  if begins_with d s then Some 0
  else match s with
       | [] => None
       | _ :: s' => match strstr s' d with
                    | Some n => Some (S n)
                    | None => None
                    end
       end.

(** string_util.c:60-85. The C function cuts the buffer in place by writing NULs; the resulting
    strings are the value here. The return value is the length of the list. *)
Fixpoint str_split (s : cstr) (delims : list cstr) : list cstr :=
  match delims with
  | [] => [s]
  | d :: ds =>
    match strstr s d with
    | Some n => firstn n s :: str_split (skipn (n + List.length d) s) ds
    | None => [s]
    end
  end.

Definition LF : ascii := "010".

(** string_util.c:97-112: search for the start of line [k] (called with k > 0). [s] is the text from
    the pointer "string" on (without NUL). The loop body advances the pointer and then tests the
    character it points at. Result: remaining text and remaining line_index. *)
Fixpoint line_search (s : cstr) (k : nat) : cstr * nat :=
  match s with
  | [] => ([], k)                    (* *string == '\0': loop ends *)
  | _ :: s' =>                       (* string++ *)
    match s' with
    | c :: s'' =>
      if ceqb c LF then
        match k with
        | 1 => (s'', 0)              (* line_index == 0: string++, break *)
        | _ => line_search s' (pred k)
        end
      else line_search s' k
    | [] => line_search s' k         (* *string is NUL, not a newline *)
    end
  end.

(** string_util.c:122-128 *)
Fixpoint line_length (s : cstr) : nat :=
  match s with
  | [] => 0
  | c :: s' => if ceqb c LF then 0 else S (line_length s')
  end.

(** string_util.c:88-129 for string != NULL. Result: [None] if *out_start was not written (the function
    returned 0 at line 117), otherwise the text from *out_start on and the returned length. *)
Definition get_line_of_string (s : cstr) (k : nat) : option (cstr * nat) :=
  let '(s', k') := if (0 <? k)%nat then line_search s k else (s, k) in
  if (k' =? 0)%nat then Some (s', line_length s') else None.

(** string_util.c:131-142. [s] is the text from the pointer on, without NUL; running over the
    NUL is an out-of-bounds read. *)
Fixpoint skip_to_m (s : cstr) : res cstr :=
  match s with
  | [] => Ub
  | c :: s' => if ceqb c "m" then Ok s' else skip_to_m s'
  end.
Definition skip_ansi (s : cstr) : res cstr :=
  match s with
  | c :: _ => if ceqb c "027" then skip_to_m s else Ok s
  | [] => Ok s
  end.

(** string_util.c:144-158. [pre] is the memory in front of the string inside the same
    allocation (nearest byte first), [s] the string. The first loop skips leading blanks; the second one
    walks back from the last character, overwriting blanks by NUL. It leaves the allocation
    (UB) if it meets only blanks. Result: memory in front, bytes of the string's cells afterwards,
    and the offset of the returned pointer. *)
Fixpoint lead_blanks (s : cstr) : nat :=
  match s with
  | c :: s' => if ceqb c " " then S (lead_blanks s') else 0
  | [] => 0
  end.

(** The backward loop over the reversed cells: NULs the blanks it meets. *)
Fixpoint strip_back (rev_cells : list ascii) : res (list ascii) :=
  match rev_cells with
  | [] => Ub
  | c :: r => if ceqb c " " then (r' <- strip_back r ;; Ok (NUL :: r'))
              else Ok rev_cells
  end.

(** The string a pointer into the cells denotes: everything up to the first NUL. *)
Fixpoint until_nul (cells : list ascii) : cstr :=
  match cells with
  | [] => []
  | c :: r => if ceqb c NUL then [] else c :: until_nul r
  end.

Definition strip (pre : list ascii) (s : cstr) : res cstr :=
  match s with
  | [] => Ok []
  | _ =>
    cells <- strip_back (rev s ++ pre) ;;
    let mem := rev (firstn (List.length s) cells) in
    Ok (until_nul (skipn (lead_blanks s) mem))
  end.
