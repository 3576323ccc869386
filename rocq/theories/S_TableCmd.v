(** Specification of the table command (C47): what the rows are, independent of the loop of the program. *)
From Coq Require Import List Ascii String NArith ZArith Bool.
From Coq.Floats Require Import SpecFloat.
From Verif Require Import M_Base M_StringUtil M_Tree M_Context M_TreeUtil M_Double M_Eval M_Simplify M_Session S_Util S_Tree.
Import ListNotations.
Open Scope list_scope.
Open Scope nat_scope.

Section TableCmd.
Variable L : libm.
Variable fuel : nat.
Variable strtod : cstr -> option double.

(** The expression has value [v] ([None]: an error) if the variables have the values [env]; random numbers are taken from
    world [w] and [w'] is left. *)
Definition value_at (env : cstr -> double) (w : world) (e : node) (w' : world) (v : option double) : Prop :=
  exists r, evals (arith_listener L fuel) (Done (Ok w)) (assign env e) (Done (Ok w')) r /\
    match r with RVal a => v = Some a | RFail _ _ => v = None end.
(** The next intermediate result of fold: the fold expression with the last one for x and the value of the row for y; 0 if that
    has no value. Rows without value are left out. *)
Definition fold_step (fold : option node) (w : world) (acc : double) (v : option double) (w' : world) (acc' : double) : Prop :=
  match fold, v with
  | Some f, Some r => exists u, value_at (fun n => if name_dec n (str "x") then acc else r) w f w' u /\ acc' = match u with Some a => a | None => d0 end
  | _, _ => w' = w /\ acc' = acc
  end.
(** [x] is not beyond [stop], going with [step] *)
Definition within (stop step x : double) : bool := if dgtb step d0 then dleb x stop else dgeb x stop.
(** The table has [n] rows. *)
Definition table (e : node) (fold : option node) (start stop step init : double) (w w' : world) (n : nat) (rows : list shown) (folded : double) : Prop :=
  exists (x : nat -> double) (v : nat -> option double) (acc : nat -> double) (before mid : nat -> world),
    x 0 = start /\ (forall k, x (S k) = dadd (x k) step) /\
    (forall k, k < n -> within stop step (x k) = true) /\ within stop step (x n) = false /\
    before 0 = w /\ before n = w' /\ acc 0 = init /\ acc n = folded /\
    (forall k, k < n -> value_at (fun _ => x k) (before k) e (mid k) (v k) /\ fold_step fold (mid k) (acc k) (v k) (before (S k)) (acc (S k))) /\
    rows = map (fun k => SRow (S k) (x k) (v k)) (List.seq 0 n).
(** The step is turned towards the end. *)
Definition turned (start stop step : double) : double :=
  if (dltb start stop && dltb step d0) || (dltb stop start && dltb d0 step) then dmul step (dneg d1) else step.

(** Reading an expression *)
Definition understood (s : session) (a : cstr) (s' : session) (t : node) : Prop := arith_parse L fuel strtod s a = Done (Ok (s', Some t)).
(** The value of an expression without variables; 0 if it has none *)
Definition constant (s : session) (t : node) (s' : session) (v : double) : Prop :=
  var_names t = [] /\ exists w' u, value_at (fun _ => d0) (ss_world s) t w' u /\ s' = with_world s w' /\ v = match u with Some a => a | None => d0 end.
(** Reading a table command: expression with at most one variable, start, end and step, and what comes after fold *)
Definition table_texts (l : cstr) (texts : list cstr) : Prop :=
  exists rest parts, l = str "table " ++ rest /\ split_into rest [str ";"; str ";"; str ";"; str " fold "; str ";"] parts /\ Forall2 is_stripped parts texts.
Inductive reads_table (s : session) : list cstr -> session -> node -> option node -> double -> double -> double -> double -> Prop :=
| reads_plain : forall a0 a1 a2 a3 s1 e s2 t1 s3 t2 s4 t3 s5 start s6 stop s7 step,
    understood s a0 s1 e -> (exists x, incl (var_names e) [x]) ->
    understood s1 a1 s2 t1 -> understood s2 a2 s3 t2 -> understood s3 a3 s4 t3 ->
    constant s4 t1 s5 start -> constant s5 t2 s6 stop -> constant s6 t3 s7 step -> deqb step d0 = false ->
    reads_table s [a0; a1; a2; a3] s7 e None start stop step d0
| reads_fold : forall a0 a1 a2 a3 a4 a5 s7 e start stop step s8 f s9 t5 s10 init,
    reads_table s [a0; a1; a2; a3] s7 e None start stop step d0 ->
    understood s7 a4 s8 f -> understood s8 a5 s9 t5 -> incl (var_names f) [str "x"; str "y"] -> constant s9 t5 s10 init ->
    reads_table s [a0; a1; a2; a3; a4; a5] s10 e (Some f) start stop step init.
End TableCmd.
