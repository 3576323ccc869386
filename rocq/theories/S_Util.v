(** Specifications for the utility layer: what an ideal list, text, sequence, finite map is.
    Nothing here mentions the model, except the names of the operations. *)
From Coq Require Import List Ascii String NArith ZArith Bool Lia.
From Verif Require Import M_Base M_Vector.
Import ListNotations.

(** ** Ideal list (C01): last element is the top. [None]: the call is not allowed in this state
    (index out of range), so nothing is required of the implementation. *)
Section ListSpec.
Context {A : Type}.

Fixpoint set_nth (i : nat) (x : A) (l : list A) : list A :=
  match l, i with
  | [], _ => []
  | _ :: l', 0 => x :: l'
  | y :: l', S i' => y :: set_nth i' x l'
  end.

Definition last_of (l : list A) : option A :=
  match rev l with [] => None | x :: _ => Some x end.

Definition list_step (l : list A) (o : vop A) : option (list A * vout A) :=
  match o with
  | VPush x | VPushElem x => Some (l ++ [x], ONone)
  | VPushMany xs => Some (l ++ xs, ONone)
  | VPop => Some (removelast l, OElem (last_of l))
  | VPeek => Some (l, OElem (last_of l))
  | VGet i => match nth_error l i with
              | Some x => Some (l, OElem (Some x))
              | None => None
              end
  | VSet i x => if (i <? List.length l)%nat then Some (set_nth i x l, ONone) else None
  | VClear => Some ([], ONone)
  | VTrim | VEnsure _ => Some (l, ONone)
  | VCount => Some (l, OCount (List.length l))
  end.

Fixpoint list_run (l : list A) (ops : list (vop A)) : option (list A * list (vout A)) :=
  match ops with
  | [] => Some (l, [])
  | o :: ops' =>
    match list_step l o with
    | None => None
    | Some (l', x) =>
      match list_run l' ops' with
      | None => None
      | Some (l'', xs) => Some (l'', x :: xs)
      end
    end
  end.
End ListSpec.

(** ** Ideal text (C02) *)
Definition text_step (t : cstr) (o : sbop) : cstr :=
  match o with
  | SAppend x => t ++ x
  | SChar c => t ++ [c]
  | SClear => []
  end.
Definition no_nul (t : cstr) : Prop := ~ In NUL t.
Definition op_no_nul (o : sbop) : Prop :=
  match o with
  | SAppend x => no_nul x
  | SChar c => c <> NUL
  | SClear => True
  end.

(** ** Ideal sequence with node handles (C03). The state is the sequence of (handle, value) pairs
    and the number of insertions so far; the k-th insertion creates handle k. [None]: the call is not
    allowed (stale handle, index out of range). *)
From Verif Require Import M_LinkedList.
Section SeqSpec.
Context {A : Type}.
Definition seq := (list (nat * A) * nat)%type.

(** Insert (k, x) right behind the element with handle [b]. *)
Fixpoint insert_behind (b k : nat) (x : A) (l : list (nat * A)) : option (list (nat * A)) :=
  match l with
  | [] => None
  | (a, y) :: l' =>
    if (a =? b)%nat then Some ((a, y) :: (k, x) :: l')
    else match insert_behind b k x l' with
         | Some r => Some ((a, y) :: r)
         | None => None
         end
  end.
Definition insert_index (i k : nat) (x : A) (l : list (nat * A)) : option (list (nat * A)) :=
  if (i <=? List.length l)%nat then Some (firstn i l ++ (k, x) :: skipn i l) else None.
Definition remove_handle (b : nat) (l : list (nat * A)) : option (list (nat * A)) :=
  if existsb (fun p => (fst p =? b)%nat) l
  then Some (filter (fun p => negb (fst p =? b)%nat) l) else None.
Definition remove_index (i : nat) (l : list (nat * A)) : option (list (nat * A)) :=
  if (i <? List.length l)%nat then Some (firstn i l ++ skipn (S i) l) else None.

Definition inserted (o : option (list (nat * A))) (k : nat) : option (seq * lout A) :=
  match o with Some l => Some ((l, S k), LOHandle k) | None => None end.
Definition removed (o : option (list (nat * A))) (k : nat) : option (seq * lout A) :=
  match o with Some l => Some ((l, k), LONone) | None => None end.

Definition seq_step (s : seq) (o : lop A) : option (seq * lout A) :=
  let '(l, k) := s in
  match o with
  | LInsertAfter None x => inserted (Some ((k, x) :: l)) k
  | LInsertAfter (Some b) x => inserted (insert_behind b k x l) k
  | LAppend x => inserted (Some (l ++ [(k, x)])) k
  | LInsertAt i x => inserted (insert_index i k x l) k
  | LDeleteNode b => removed (remove_handle b l) k
  | LDeleteAt i => removed (remove_index i l) k
  | LGetNode i => match nth_error l i with Some p => Some (s, LOHandle (fst p)) | None => None end
  | LGetAt i => match nth_error l i with Some p => Some (s, LOElem (snd p)) | None => None end
  | LCount => Some (s, LONum (List.length l))
  | LIterate => Some (s, LOSeq (map snd l))
  | LBackward => Some (s, LOSeq (rev (map snd l)))
  end.

Fixpoint seq_run (s : seq) (ops : list (lop A)) : option (seq * list (lout A)) :=
  match ops with
  | [] => Some (s, [])
  | o :: ops' =>
    match seq_step s o with
    | None => None
    | Some (s', x) =>
      match seq_run s' ops' with
      | None => None
      | Some (s'', xs) => Some (s'', x :: xs)
      end
    end
  end.
End SeqSpec.
Arguments seq : clear implicits.

(** ** Ideal finite map from strings (C04-C07): an association list without duplicate keys *)
From Verif Require Import M_Trie.
Section MapSpec.
Context {D : Type}.
Definition smap := list (cstr * D).

Fixpoint find_key (s : cstr) (m : smap) : option D :=
  match m with
  | [] => None
  | (k, d) :: m' => if streqb k s then Some d else find_key s m'
  end.
Definition remove_key (s : cstr) (m : smap) : smap :=
  filter (fun kd => negb (streqb (fst kd) s)) m.

(** Adding a present key reports [false] and changes nothing. *)
Definition map_step (m : smap) (o : trop D) : smap * bool :=
  match o with
  | TAdd s d => match find_key s m with
                | Some _ => (m, false)
                | None => ((s, d) :: m, true)
                end
  | TRemove s => (remove_key s m, true)
  end.
Fixpoint map_run (m : smap) (ops : list (trop D)) : smap * list bool :=
  match ops with
  | [] => (m, [])
  | o :: ops' =>
    let '(m', b) := map_step m o in
    let '(m'', bs) := map_run m' ops' in (m'', b :: bs)
  end.

(** Characters that may occur in stored strings: from '!' to '|'. *)
Definition admissible_char (c : ascii) : Prop := 33 <= nat_of_ascii c <= 124.
Definition op_admissible (o : trop D) : Prop :=
  match o with TAdd s _ => Forall admissible_char s | TRemove _ => True end.

(** [k] is the length of the longest non-empty key of [m] that is a prefix of [s], 0 if none. *)
Definition longest_key_prefix (m : smap) (s : cstr) (k : nat) : Prop :=
  k <= List.length s
  /\ (0 < k -> find_key (firstn k s) m <> None)
  /\ (forall j, k < j <= List.length s -> find_key (firstn j s) m = None).

(** Strict lexicographic order by character code; a proper prefix comes first. *)
Fixpoint lex_lt (a b : cstr) : Prop :=
  match a, b with
  | [], [] => False
  | [], _ :: _ => True
  | _ :: _, [] => False
  | x :: a', y :: b' =>
    nat_of_ascii x < nat_of_ascii y \/ (x = y /\ lex_lt a' b')
  end.
End MapSpec.
Arguments smap : clear implicits.

(** ** Strings (C08-C10) *)
Definition starts_with (p s : cstr) : Prop := exists r, s = p ++ r.

(** [s] is cut at its first (left-most) occurrence of [d] into [a] and [b]. *)
Definition cut_at_first (d s a b : cstr) : Prop :=
  s = a ++ d ++ b /\ forall a' b', s = a' ++ d ++ b' -> List.length a <= List.length a'.
Definition does_not_occur (d s : cstr) : Prop := forall a b, s <> a ++ d ++ b.

(** Splitting at one delimiter after the other; stops at the first one that does not occur. *)
Inductive split_into : cstr -> list cstr -> list cstr -> Prop :=
| split_end : forall s, split_into s [] [s]
| split_cut : forall s d ds a b ps,
    cut_at_first d s a b -> split_into b ds ps -> split_into s (d :: ds) (a :: ps)
| split_stop : forall s d ds, does_not_occur d s -> split_into s (d :: ds) [s].

(** The pieces with the delimiters put back between them *)
Fixpoint rejoin (ps ds : list cstr) : cstr :=
  match ps, ds with
  | [], _ => []
  | [p], _ => p
  | p :: ps', d :: ds' => p ++ d ++ rejoin ps' ds'
  | p :: ps', [] => p ++ rejoin ps' []
  end.

(** The lines of a text: maximal newline-free pieces *)
Fixpoint text_lines (s : cstr) : list cstr :=
  match s with
  | [] => [[]]
  | c :: s' =>
    if Ascii.eqb c (ascii_of_nat 10) then [] :: text_lines s'
    else match text_lines s' with
         | [] => [[c]]
         | l :: ls => (c :: l) :: ls
         end
  end.

(** [r] is [s] without the blanks around it *)
Definition blanks (k : nat) : cstr := repeat " "%char k.
Definition is_stripped (s r : cstr) : Prop :=
  exists a b, s = blanks a ++ r ++ blanks b
    /\ (forall r', r <> " "%char :: r') /\ (forall r', r <> r' ++ [" "%char]).

(** [reach n p m]: following the links of the characters of [p] from node [n] leads to node [m] (C06). *)
Inductive reach {D : Type} : tnode D -> cstr -> tnode D -> Prop :=
| reach_here : forall n, reach n [] n
| reach_step : forall n c p ch m,
    admissible_char c ->
    nth_error (tn_next n) (nat_of_ascii c - 33) = Some (Some ch) ->
    reach ch p m -> reach n (c :: p) m.
(** Number of links of a node that lead somewhere *)
Fixpoint live_links {D : Type} (l : list (option (tnode D))) : nat :=
  match l with
  | [] => 0
  | Some _ :: l' => S (live_links l')
  | None :: l' => live_links l'
  end.
