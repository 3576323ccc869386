(** Specifications for tokenizer and operator registry. *)
From Coq Require Import List Ascii String NArith ZArith Bool Lia Arith.
From Verif Require Import M_Base M_Tree M_Context.
Import ListNotations.
Open Scope nat_scope.

(** ** Character classes, spelled out by code (C11, C12) *)
Definition in_range (c : ascii) (lo hi : nat) : Prop := lo <= nat_of_ascii c <= hi.
(** 0-9 and the decimal point *)
Definition digit_char (c : ascii) : Prop := in_range c 48 57 \/ nat_of_ascii c = 46.
(** A-Z, a-z, underscore and square brackets *)
Definition letter_char (c : ascii) : Prop :=
  in_range c 65 90 \/ in_range c 97 122 \/ nat_of_ascii c = 95 \/ nat_of_ascii c = 91 \/ nat_of_ascii c = 93.

Definition starts_in (P : ascii -> Prop) (s : cstr) : Prop := exists c r, s = c :: r /\ P c.
(** [k] is the longest keyword at the beginning of [s]. *)
Definition longest_keyword (kw : cstr -> Prop) (s k : cstr) : Prop :=
  (exists r, s = k ++ r) /\ k <> [] /\ kw k
  /\ forall k' r', s = k' ++ r' -> kw k' -> k' <> [] -> List.length k' <= List.length k.
Definition no_keyword (kw : cstr -> Prop) (s : cstr) : Prop :=
  forall k r, s = k ++ r -> k <> [] -> ~ kw k.

(** How an input is to be cut into tokens *)
Inductive lexed (kw : cstr -> Prop) : cstr -> list cstr -> Prop :=
| lex_end : lexed kw [] []
| lex_letters : forall w rest ts,
    w <> [] -> Forall letter_char w -> ~ starts_in letter_char rest ->
    lexed kw rest ts -> lexed kw (w ++ rest) (w :: ts)
| lex_digits : forall w rest ts,
    w <> [] -> Forall digit_char w -> ~ starts_in digit_char rest ->
    lexed kw rest ts -> lexed kw (w ++ rest) (w :: ts)
| lex_keyword : forall c k rest ts,
    ~ letter_char c -> longest_keyword kw (c :: k ++ rest) (c :: k) ->
    lexed kw rest ts -> lexed kw (c :: k ++ rest) ((c :: k) :: ts)
| lex_other : forall c rest ts,
    ~ letter_char c -> ~ digit_char c -> no_keyword kw (c :: rest) ->
    lexed kw rest ts -> lexed kw (c :: rest) ([c] :: ts).

(** ** Registry (C13-C15): the operators registered, oldest first *)
Definition registry := list operator.
Definition same_slot (n : cstr) (p : placement) (o : operator) : bool :=
  streqb (o_name o) n && placement_eqb (o_place o) p.
Definition reg_find (r : registry) (n : cstr) (p : placement) : option operator :=
  find (same_slot n p) r.
(** Two infix operators of the same precedence with different associativity *)
Definition conflicting (a b : operator) : Prop :=
  o_place a = PInfix /\ o_place b = PInfix /\ o_prec a = o_prec b /\ o_assoc a <> o_assoc b.
(** May [o] be added to [r]? *)
Definition addable (r : registry) (o : operator) : Prop :=
  reg_find r (o_name o) (o_place o) = None /\ forall b, In b r -> ~ conflicting o b.
Definition same_definition (a b : operator) : Prop :=
  o_name a = o_name b /\ o_arity a = o_arity b /\ o_prec a = o_prec b /\ o_assoc a = o_assoc b
  /\ o_place a = o_place b.

(** What one call does to the registry and what it answers *)
Inductive reg_step : registry -> cop -> registry -> cout -> Prop :=
| rs_add : forall r o o', addable r o -> same_definition o o' ->
    reg_step r (CAdd o) (r ++ [o']) (COp (Some o'))
| rs_add_fail : forall r o, ~ addable r o -> reg_step r (CAdd o) r (COp None)
| rs_delete : forall r n p o, reg_find r n p = Some o ->
    reg_step r (CDelete n p) (filter (fun o => negb (same_slot n p o)) r) (CBool true)
| rs_delete_fail : forall r n p, reg_find r n p = None -> reg_step r (CDelete n p) r (CBool false)
| rs_lookup : forall r n p, reg_step r (CLookup n p) r (COp (reg_find r n p)).
Inductive reg_run : registry -> list cop -> registry -> list cout -> Prop :=
| rr_nil : forall r, reg_run r [] r []
| rr_cons : forall r o r1 x ops r2 xs,
    reg_step r o r1 x -> reg_run r1 ops r2 xs -> reg_run r (o :: ops) r2 (x :: xs).

(** Operator names the tries can store: characters from '!' to '|' *)
Definition storable (n : cstr) : Prop := Forall (fun c => 33 <= nat_of_ascii c <= 124) n.
Definition cop_storable (o : cop) : Prop :=
  match o with CAdd op => storable (o_name op) | _ => True end.

(** A history that adds an operator only when the registered operators are the oldest ones of those
    registered right after the previous addition ([b]), that is, when only the youngest ones were deleted
    in between (C14). *)
Inductive youngest_deleted : registry -> registry -> list cop -> registry -> list cout -> Prop :=
| yd_nil : forall b r, youngest_deleted b r [] r []
| yd_add : forall b r l o r1 x ops r2 xs,
    b = r ++ l -> reg_step r (CAdd o) r1 x -> youngest_deleted r1 r1 ops r2 xs ->
    youngest_deleted b r (CAdd o :: ops) r2 (x :: xs)
| yd_other : forall b r o r1 x ops r2 xs,
    (forall op, o <> CAdd op) -> reg_step r o r1 x -> youngest_deleted b r1 ops r2 xs ->
    youngest_deleted b r (o :: ops) r2 (x :: xs).
