(** Model of src/engine/parsing/tokenizer.c. *)
From Coq Require Import List Ascii String NArith ZArith Bool Lia Arith.
From Verif Require Import M_Base M_StringUtil.
Import ListNotations.
Open Scope nat_scope.

(** tokenizer.c:13-19 *)
Inductive tokstate := TNew | TLetter | TDigit | TOther.
Definition tokstate_eqb (a b : tokstate) : bool :=
  match a, b with
  | TNew, TNew | TLetter, TLetter | TDigit, TDigit | TOther, TOther => true
  | _, _ => false
  end.

Section Tok.
(** trie_longest_prefix(keywords_trie, ., NULL); a NULL trie is the constant function 0 (line 70). *)
Variable kwlen : cstr -> nat.

(** tokenizer.c:48-60 *)
Definition char_state (c : ascii) : tokstate :=
  if is_digit c then TDigit else if is_letter c then TLetter else TOther.

(** tokenizer.c:21-31. The length is computed in size_t: a negative one (end before start) would be a
    huge copy out of bounds, which is undefined behaviour; so is reading past the end. *)
Definition push_token (input : cstr) (start stop : nat) (acc : list cstr) : res (list cstr) :=
  if stop <? start then Ub
  else if stop =? start then Ok acc
  else if List.length input <? stop then Ub
  else Ok (acc ++ [firstn (stop - start) (skipn start input)]).

Open Scope res_scope.
(** tokenizer.c:46-83: one round per character read; [fuel] bounds the rounds, the input length
    suffices because i grows in every round. *)
Fixpoint tok_loop (fuel : nat) (input : cstr) (state : tokstate) (start i : nat) (acc : list cstr)
  : res (nat * list cstr) :=
  match nth_error input i with
  | None => Ok (start, acc)
  | Some c =>
    match fuel with
    | 0 => Halt
    | S f =>
      let next := char_state c in
      '(start1, acc1) <-
        (if negb (tokstate_eqb state TNew)
            && (negb (tokstate_eqb next state) || tokstate_eqb next TOther)
         then a <- push_token input start i acc ;; Ok (i, a)
         else Ok (start, acc)) ;;
      let k := if tokstate_eqb next TLetter then 0 else kwlen (skipn i input) in
      if 0 <? k then
        acc2 <- push_token input i (i + k) acc1 ;;
        tok_loop f input TNew (start1 + k) (i + k - 1 + 1) acc2
      else tok_loop f input next start1 (i + 1) acc1
    end
  end.

(** tokenizer.c:40-87 *)
Definition tokenize (input : cstr) : res (list cstr) :=
  '(start, acc) <- tok_loop (List.length input) input TNew 0 0 [] ;;
  push_token input start (List.length input) acc.
End Tok.
