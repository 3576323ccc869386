(** Model of src/util/vector.c and src/util/string_builder.c. *)
From Coq Require Import List Ascii String NArith ZArith Bool Lia.
From Verif Require Import M_Base.
Import ListNotations.
Open Scope res_scope.

Section Vec.
Context {A : Type}.

(** vector.h:17-23. [v_buf] is the allocated memory: one entry per element cell, [None] for a
    cell never written. [v_size] is the field buffer_size, which the code keeps separately from
    the allocation. elem_size is abstracted: cells hold whole elements. *)
Record vec := mkVec { v_buf : list (option A); v_cnt : nat; v_size : nat }.

(** realloc to n cells: old contents kept as far as they fit, the rest uninitialised. *)
Definition realloc (buf : list (option A)) (n : nat) : list (option A) :=
  firstn n buf ++ repeat None (n - List.length buf).

(** Memory write / read of one cell; outside the allocation it is undefined behaviour, and so
    is reading a cell that was never written. *)
Definition mem_write (buf : list (option A)) (i : nat) (x : A) : res (list (option A)) :=
  if (i <? List.length buf)%nat then Ok (firstn i buf ++ Some x :: skipn (S i) buf) else Ub.
Definition mem_read (buf : list (option A)) (i : nat) : res A :=
  match nth_error buf i with
  | Some (Some x) => Ok x
  | _ => Ub
  end.

(** memcpy of a list of elements *)
Fixpoint mem_write_many (buf : list (option A)) (i : nat) (xs : list A) : res (list (option A)) :=
  match xs with
  | [] => Ok buf
  | x :: xs' => buf' <- mem_write buf i x ;; mem_write_many buf' (S i) xs'
  end.

(** vector.c:12-16 *)
Definition vec_trim (v : vec) : vec :=
  let n := v_cnt v + 1 in
  mkVec (realloc (v_buf v) n) (v_cnt v) n.

(** vector.c:20-23: the growth loop. Each round adds max(1, size/2); (size_t)(size * 0.5) is
    size/2 rounded down for sizes below 2^53. The fuel is the distance to go; [grow_enough] in
    L_Vector.v shows it never runs out. *)
Fixpoint grow (fuel needed size : nat) : nat :=
  if (size <? needed)%nat then
    match fuel with
    | 0 => size
    | S f => grow f needed (size + Nat.max 1 (size / 2))
    end
  else size.

(** vector.c:18-25 *)
Definition vec_ensure_size (v : vec) (needed : nat) : vec :=
  let n := grow (needed - v_size v) needed (v_size v) in
  mkVec (realloc (v_buf v) n) (v_cnt v) n.

(** vector.c:27-35 *)
Definition vec_create (start_size : nat) : vec :=
  mkVec (repeat None start_size) 0 start_size.

(** vector.c:37-40 *)
Definition vec_clear (v : vec) : vec := mkVec (v_buf v) 0 (v_size v).

(** vector.c:47-50 followed by a read through the returned pointer *)
Definition vec_get (v : vec) (i : nat) : res A := mem_read (v_buf v) i.

(** VEC_SET_ELEM, vector.h:11: vec_get followed by a write through the returned pointer *)
Definition vec_set (v : vec) (i : nat) (x : A) : res vec :=
  b <- mem_write (v_buf v) i x ;; Ok (mkVec b (v_cnt v) (v_size v)).

(** vector.c:60-64 *)
Definition vec_push_empty (v : vec) : vec * nat :=
  let v' := vec_ensure_size v (v_cnt v + 1) in
  (mkVec (v_buf v') (v_cnt v' + 1) (v_size v'), v_cnt v').

(** VEC_PUSH_ELEM, vector.h:10: push_empty, then write through the returned pointer *)
Definition vec_push_elem (v : vec) (x : A) : res vec :=
  let '(v', i) := vec_push_empty v in vec_set v' i x.

(** vector.c:66-73 *)
Definition vec_push_many (v : vec) (xs : list A) : res vec :=
  let v' := vec_ensure_size v (v_cnt v + List.length xs) in
  b <- mem_write_many (v_buf v') (v_cnt v') xs ;;
  Ok (mkVec b (v_cnt v' + List.length xs) (v_size v')).

(** vector.c:52-55 *)
Definition vec_push (v : vec) (x : A) : res vec := vec_push_many v [x].

(** vector.c:75-80, followed by a read through the returned pointer; NULL is [None] *)
Definition vec_pop (v : vec) : res (vec * option A) :=
  if (v_cnt v =? 0)%nat then Ok (v, None)
  else
    let v' := mkVec (v_buf v) (v_cnt v - 1) (v_size v) in
    x <- vec_get v' (v_cnt v') ;; Ok (v', Some x).

(** vector.c:82-86 *)
Definition vec_peek (v : vec) : res (option A) :=
  if (v_cnt v =? 0)%nat then Ok None
  else x <- vec_get v (v_cnt v - 1) ;; Ok (Some x).

(** vector.c:88-91 *)
Definition vec_count (v : vec) : nat := v_cnt v.

(** vector.c:95-107, 114-121. The iterator state is curr_index + 1 (curr_index starts at -1). *)
Definition vec_iter_next (v : vec) (it : nat) : res (nat * option A) :=
  if (it <? vec_count v)%nat then x <- vec_get v it ;; Ok (S it, Some x)
  else Ok (S it, None).
(** vector.c:109-112 *)
Definition vec_iter_reset : nat := 0.

(** One call of the vector interface, as data, and its observable result. *)
Inductive vop :=
| VPush (x : A) | VPushElem (x : A) | VPushMany (xs : list A)
| VPop | VPeek | VGet (i : nat) | VSet (i : nat) (x : A)
| VClear | VTrim | VEnsure (n : nat) | VCount.

Inductive vout := ONone | OElem (o : option A) | OCount (n : nat).

Definition vec_step (v : vec) (o : vop) : res (vec * vout) :=
  match o with
  | VPush x => v' <- vec_push v x ;; Ok (v', ONone)
  | VPushElem x => v' <- vec_push_elem v x ;; Ok (v', ONone)
  | VPushMany xs => v' <- vec_push_many v xs ;; Ok (v', ONone)
  | VPop => '(v', x) <- vec_pop v ;; Ok (v', OElem x)
  | VPeek => x <- vec_peek v ;; Ok (v, OElem x)
  | VGet i => x <- vec_get v i ;; Ok (v, OElem (Some x))
  | VSet i x => v' <- vec_set v i x ;; Ok (v', ONone)
  | VClear => Ok (vec_clear v, ONone)
  | VTrim => Ok (vec_trim v, ONone)
  | VEnsure n => Ok (vec_ensure_size v n, ONone)
  | VCount => Ok (v, OCount (vec_count v))
  end.

Fixpoint vec_run (v : vec) (ops : list vop) : res (vec * list vout) :=
  match ops with
  | [] => Ok (v, [])
  | o :: ops' =>
    '(v', x) <- vec_step v o ;;
    '(v'', xs) <- vec_run v' ops' ;;
    Ok (v'', x :: xs)
  end.

(** Runs the iterator until it reports the end (at most [fuel] calls). *)
Fixpoint vec_iterate (v : vec) (fuel it : nat) : res (list A) :=
  match fuel with
  | 0 => Ok []
  | S f =>
    '(it', x) <- vec_iter_next v it ;;
    match x with
    | None => Ok []
    | Some a => r <- vec_iterate v f it' ;; Ok (a :: r)
    end
  end.
End Vec.
Arguments vec : clear implicits.
Arguments vop : clear implicits.
Arguments vout : clear implicits.

(** ** src/util/string_builder.c *)

(** libc vsnprintf at cell [i] with size [n]: writes the text (the result of formatting, which is
    a parameter of the call), cut to n-1 characters, and a NUL, if n > 0; returns the full length. *)
Definition vsnprintf (buf : list (option ascii)) (i n : nat) (text : cstr)
  : res (list (option ascii) * nat) :=
  match n with
  | 0 => Ok (buf, List.length text)
  | S m => b <- mem_write_many buf i (firstn m text ++ [NUL]) ;; Ok (b, List.length text)
  end.

(** string_builder.c:6-11 *)
Definition strbuilder_create (start_size : nat) : res (vec ascii) :=
  vec_push_elem (vec_create start_size) NUL.

(** string_builder.c:14-24; [s] is the heap string without its NUL *)
Definition strbuilder_from_heapstring (s : cstr) : vec ascii :=
  mkVec (map Some (s ++ [NUL])) (List.length s + 1) (List.length s + 1).

(** string_builder.c:26-30 *)
Definition strbuilder_clear (b : vec ascii) : res (vec ascii) :=
  vec_push_elem (vec_clear b) NUL.

(** string_builder.c:40-44 *)
Definition strbuilder_append_char (b : vec ascii) (c : ascii) : res (vec ascii) :=
  b' <- vec_set b (v_cnt b - 1) c ;; vec_push_elem b' NUL.

(** string_builder.c:46-67 (and 32-38); [text] is what the format and its arguments expand to. *)
Definition strbuilder_append (b : vec ascii) (text : cstr) : res (vec ascii) :=
  '(buf1, appended) <- vsnprintf (v_buf b) (v_cnt b - 1) (v_size b - v_cnt b + 1) text ;;
  let b1 := mkVec buf1 (v_cnt b) (v_size b) in
  if (v_size b1 <? v_cnt b1 + appended)%nat then
    let b2 := vec_ensure_size b1 (v_cnt b1 + appended) in
    '(buf3, _) <- vsnprintf (v_buf b2) (v_cnt b2 - 1) (v_size b2 - v_cnt b2 + 1) text ;;
    Ok (mkVec buf3 (v_cnt b2 + appended) (v_size b2))
  else Ok (mkVec (v_buf b1) (v_cnt b1 + appended) (v_size b1)).

(** string_builder.c:70-73: the C string starting at the buffer. Reading stops at the first NUL; an
    uninitialised cell or the end of the buffer before it is undefined behaviour. *)
Fixpoint read_cstr (buf : list (option ascii)) : res cstr :=
  match buf with
  | Some c :: r => if ceqb c NUL then Ok [] else (s <- read_cstr r ;; Ok (c :: s))
  | _ => Ub
  end.
Definition strbuilder_to_str (b : vec ascii) : res cstr := read_cstr (v_buf b).

Inductive sbop := SAppend (text : cstr) | SChar (c : ascii) | SClear.
Definition sb_step (b : vec ascii) (o : sbop) : res (vec ascii) :=
  match o with
  | SAppend t => strbuilder_append b t
  | SChar c => strbuilder_append_char b c
  | SClear => strbuilder_clear b
  end.
Fixpoint sb_run (b : vec ascii) (ops : list sbop) : res (vec ascii) :=
  match ops with
  | [] => Ok b
  | o :: ops' => b' <- sb_step b o ;; sb_run b' ops'
  end.
