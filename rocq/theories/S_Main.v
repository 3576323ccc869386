(** Specification vocabulary for the program as a whole, from the command line to the exit status: C71. *)
From Coq Require Import List Ascii String NArith ZArith Bool Lia Arith.
From Verif Require Import M_Base M_StringUtil M_Tree M_Context M_Match M_ArithCtx M_Double M_Eval M_Simplify M_Session M_Main S_Session.
Import ListNotations.
Open Scope list_scope.
Open Scope nat_scope.

(** ** The command line *)
(** The spellings of the switches *)
Definition asks (sw : switch) (a : cstr) : Prop :=
  match sw with
  | SwInteractive => a = str "--interactive" \/ a = str "-i"
  | SwQuiet => a = str "--quiet" \/ a = str "-q"
  | SwHelp => a = str "--help" \/ a = str "-h"
  | SwVersion => a = str "--version" \/ a = str "-v"
  | SwCommands => a = str "--commands" \/ a = str "-c"
  end.
Definition a_switch (a : cstr) : Prop := exists sw, asks sw a.
Definition given (sw : switch) (args : list cstr) : Prop := exists a, In a args /\ asks sw a.
(** All arguments behind the first --commands are commands. *)
Inductive command_line : list cstr -> list cstr -> option (list cstr) -> Prop :=
| cl_switches : forall args, ~ given SwCommands args -> command_line args args None
| cl_commands : forall pre a cmds, ~ given SwCommands pre -> asks SwCommands a -> command_line (pre ++ a :: cmds) pre (Some cmds).

Section Program.
Variable exec : session -> cstr -> step cmdres.
(** ** Commands given as arguments *)
(** All commands succeed, one after the other. *)
Inductive carried_out : session -> list cstr -> session -> list shown -> Prop :=
| co_none : forall s, carried_out s [] s []
| co_next : forall s c cs s1 o1 s' o, exec s c = Done (Ok (Did s1 o1 true)) -> carried_out s1 cs s' o -> carried_out s (c :: cs) s' (o1 ++ o).
(** The commands up to [c] succeed; [c] fails, or it ends the program. *)
Inductive broken_off : session -> list cstr -> list said -> bool -> Prop :=
| bo_failed : forall s before s1 o1 c behind s2 o2, carried_out s before s1 o1 -> exec s1 c = Done (Ok (Did s2 o2 false)) ->
    broken_off s (before ++ c :: behind) (map Showed (o1 ++ o2) ++ [CommandFailed (List.length before + 1)]) false
| bo_quit : forall s before s1 o1 c behind o2 b, carried_out s before s1 o1 -> exec s1 c = Done (Ok (Quit o2 b)) ->
    broken_off s (before ++ c :: behind) (map Showed (o1 ++ o2)) b.

(** ** Lines of the input *)
(** All lines are executed; or a line is quit, or executing it ends the program. [b]: no command failed. *)
Inductive lines_read : session -> list cstr -> list shown -> bool -> Prop :=
| lr_all : forall s ls s' o b, typed exec s ls s' o b -> lines_read s ls o b
| lr_quit : forall s before s1 o b behind, typed exec s before s1 o b -> lines_read s (before ++ str "quit" :: behind) o b
| lr_exit : forall s before s1 o1 b1 l behind o2 b, typed exec s before s1 o1 b1 -> l <> str "quit" -> ~ skipped l ->
    exec s1 l = Done (Ok (Quit o2 b)) -> lines_read s (before ++ l :: behind) (o1 ++ o2) b.

(** ** The program *)
(** [init s o]: the program can start in session [s], with messages [o]. [tty]: the input is a terminal. *)
Variable init : session -> list said -> Prop.
Definition greeting (tty : bool) (pre : list cstr) (o : list said) : Prop :=
  (tty = true /\ ~ given SwQuiet pre /\ o = [Out (COPYRIGHT_NOTICE ++ WARRANTY_NOTICE)]) \/
  ((tty = false \/ given SwQuiet pre) /\ o = []).
Inductive outcome (tty : bool) (ls : list cstr) : list cstr -> list said -> bool -> Prop :=
| oc_unknown : forall args p1 a p2 cmds, command_line args (p1 ++ a :: p2) cmds -> Forall a_switch p1 -> ~ a_switch a ->
    outcome tty ls args [Err (str "Unrecognized argument: " ++ a ++ LFs ++ HELP_MESSAGE)] false
| oc_help : forall args pre cmds, command_line args pre cmds -> Forall a_switch pre -> given SwHelp pre ->
    outcome tty ls args [Out HELP_MESSAGE] true
| oc_version : forall args pre cmds, command_line args pre cmds -> Forall a_switch pre -> ~ given SwHelp pre -> given SwVersion pre ->
    outcome tty ls args [Out COPYRIGHT_NOTICE] true
| oc_input : forall args pre g s o0 o b, command_line args pre None -> Forall a_switch pre -> ~ given SwHelp pre -> ~ given SwVersion pre ->
    greeting tty pre g -> init s o0 -> lines_read s ls o b ->
    outcome tty ls args (g ++ o0 ++ map Showed o) b
| oc_commands : forall args pre cmds s o0 s1 o1, command_line args pre (Some cmds) -> Forall a_switch pre -> ~ given SwHelp pre -> ~ given SwVersion pre ->
    ~ given SwInteractive pre -> init s o0 -> carried_out s cmds s1 o1 ->
    outcome tty ls args (o0 ++ map Showed o1) true
| oc_broken : forall args pre cmds g s o0 o b, command_line args pre (Some cmds) -> Forall a_switch pre -> ~ given SwHelp pre -> ~ given SwVersion pre ->
    (given SwInteractive pre /\ greeting tty pre g \/ ~ given SwInteractive pre /\ g = []) -> init s o0 -> broken_off s cmds o b ->
    outcome tty ls args (g ++ o0 ++ o) b
| oc_both : forall args pre cmds g s o0 s1 o1 o b, command_line args pre (Some cmds) -> Forall a_switch pre -> ~ given SwHelp pre -> ~ given SwVersion pre ->
    given SwInteractive pre -> greeting tty pre g -> init s o0 -> carried_out s cmds s1 o1 -> lines_read s1 ls o b ->
    outcome tty ls args (g ++ o0 ++ map Showed (o1 ++ o)) b.
End Program.
