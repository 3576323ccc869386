(** Model of src/client/main.c (program start, command line), of init_commands with its messages (commands.c:68-85)
    and of the license and usage texts. *)
From Coq Require Import List Ascii String NArith ZArith Bool Lia Arith.
From Verif Require Import M_Base M_StringUtil M_Trie M_Tree M_Context M_Tokenizer M_Parser M_TreeUtil M_Match M_RuleParsing M_ArithCtx M_Double M_Eval M_Simplify M_Session.
Import ListNotations.
Open Scope list_scope.
Open Scope nat_scope.
Open Scope res_scope.

Definition LFs : cstr := [ascii_of_nat 10].
(** main.c:11-12 *)
Definition HELP_MESSAGE : cstr :=
  str "Usage: ccalc [--help] [--version] [--interactive] [--quiet] [--commands [<commands>]]" ++ LFs ++
  str "Each switch can be abbreviated by -h, -v etc." ++ LFs.
(** version.h:1-9, compiled without DEBUG *)
Definition COPYRIGHT_NOTICE : cstr := str "ccalc 1.6.5 Copyright (C) 2018-2021 Philipp Hochmann, phil.hochmann@gmail.com" ++ LFs.
(** main.c:101-103 *)
Definition WARRANTY_NOTICE : cstr :=
  str "This program comes with ABSOLUTELY NO WARRANTY; for details type 'license'." ++ LFs ++
  str "This is free software, and you are welcome to redistribute it under certain conditions." ++ LFs.

(** The boolean variables of main (main.c:52-56). The payload of the trie, a pointer to one of them, is modelled by its
    name. *)
Inductive switch := SwInteractive | SwQuiet | SwHelp | SwVersion | SwCommands.
Definition switch_eqb (a b : switch) : bool :=
  match a, b with
  | SwInteractive, SwInteractive | SwQuiet, SwQuiet | SwHelp, SwHelp | SwVersion, SwVersion | SwCommands, SwCommands => true
  | _, _ => false
  end.
(** The values of the variables; all are false after add_switch. *)
Definition flags := switch -> bool.
Definition no_flags : flags := fun _ => false.
Definition raise (f : flags) (sw : switch) : flags := fun x => if switch_eqb sw x then true else f x.

(** main.c:58-67 *)
Definition switch_calls : list (trop switch) :=
  [ TAdd (str "--interactive") SwInteractive; TAdd (str "-i") SwInteractive;
    TAdd (str "--quiet") SwQuiet; TAdd (str "-q") SwQuiet;
    TAdd (str "--help") SwHelp; TAdd (str "-h") SwHelp;
    TAdd (str "--version") SwVersion; TAdd (str "-v") SwVersion;
    TAdd (str "--commands") SwCommands; TAdd (str "-c") SwCommands ].
Definition switches : res (trie switch) := '(t, _) <- trie_run trie_create switch_calls ;; Ok t.

(** main.c:32-44: the switch ([None]: NULL). A payload that was never written would be dereferenced. *)
Definition parse_arg (t : trie switch) (arg : cstr) : res (option switch) :=
  match trie_contains t arg with
  | (true, Some sw) => Ok (Some sw)
  | (true, None) => Ub
  | (false, _) => Ok None
  end.

(** main.c:68-83, from argv[i] on: the variables and, if commands_index is set, the arguments behind it; or the
    argument that is not recognized *)
Fixpoint arg_loop (t : trie switch) (f : flags) (args : list cstr) : res ((flags * option (list cstr)) + cstr) :=
  match args with
  | [] => Ok (inl (f, None))
  | a :: rest =>
    sw <- parse_arg t a ;;
    match sw with
    | Some SwCommands => Ok (inl (raise f SwCommands, Some rest))
    | Some x => arg_loop t (raise f x) rest
    | None => Ok (inr a)
    end
  end.

(** What the program writes: a text on stdout or stderr, what the commands show, "Error occurred in command k" *)
Inductive said := Out (text : cstr) | Err (text : cstr) | Showed (o : shown) | CommandFailed (k : nat).
(** What the program has written when it ends, and whether its exit status is EXIT_SUCCESS *)
Definition ended := (list said * bool)%type.

Section Main.
Variable L : libm.
Variable fuel : nat.
Variable strtod : cstr -> option double.
Variable files : cstr -> option (list ascii).
(** nesting of scripts (see M_Session.exec_command) *)
Variable depth : nat.
(** the path of the installed rule set, what rand() will yield *)
Variable path : cstr.
Variable rand : list Z.

(** commands.c:68-85: M_Session.init_commands with the message it may write *)
Definition start : res (session * list said) :=
  g <- get_arith_ctx ;;
  pc <- init_propositional_ctx ;;
  r <- init_simplification strtod g pc (files path) ;;
  match r with
  | ILoaded sm _ => Ok (mkSession g pc [] (Some sm) (mkWorld [] rand), [])
  | IUnreadable | IMalformed => Ok (mkSession g pc [] None (mkWorld [] rand), [Showed SError])
  end.

(** main.c:112-126: the commands from number [k] on; [inr]: the program has ended *)
Fixpoint command_loop (s : session) (k : nat) (cmds : list cstr) : step (session * list said + ended) :=
  match cmds with
  | [] => sret (inl (s, []))
  | c :: rest =>
    sbind (exec_command L fuel strtod files depth s c) (fun r =>
    match r with
    | Quit o b => sret (inr (map Showed o, b))
    | Did s1 o false => sret (inr (map Showed o ++ [CommandFailed k], false))
    | Did s1 o true =>
      sbind (command_loop s1 (S k) rest) (fun x =>
      match x with
      | inl (s2, o2) => sret (inl (s2, map Showed o ++ o2))
      | inr (o2, b) => sret (inr (map Showed o ++ o2, b))
      end)
    end)
  end.

(** main.c:129-132; [input] is what stdin delivers. Lines are read with getline (console_util.c:57-77); whispered messages
    are not modelled. *)
Definition read_input (s : session) (input : list ascii) : step ended :=
  sbind (process_input L fuel strtod files depth s input) (fun r =>
  match r with
  | Did _ o b => sret (map Showed o, b)
  | Quit o b => sret (map Showed o, b)
  end).

Definition after {A} (o : list said) (x : step (A * bool)) (f : A -> list said) : step ended :=
  sbind x (fun '(a, b) => sret (o ++ f a, b)).

(** main.c:46-133; [args] is argv[1], argv[2], ...; [tty] is isatty(STDIN_FILENO) *)
Definition main (args : list cstr) (tty : bool) (input : list ascii) : step ended :=
  sbind (of_res (t <- switches ;; arg_loop t no_flags args)) (fun x =>
  match x with
  | inr a => sret ([Err (str "Unrecognized argument: " ++ a ++ LFs ++ HELP_MESSAGE)], false)
  | inl (f, cmds) =>
    if f SwHelp then sret ([Out HELP_MESSAGE], true)
    else if f SwVersion then sret ([Out COPYRIGHT_NOTICE], true)
    else
      let notice := if (f SwInteractive || match cmds with None => true | Some _ => false end) && (negb (f SwQuiet) && tty)
                    then [Out (COPYRIGHT_NOTICE ++ WARRANTY_NOTICE)] else [] in
      sbind (of_res start) (fun '(s, o0) =>
      match cmds with
      | None => after (notice ++ o0) (read_input s input) (fun o => o)
      | Some cs =>
        sbind (command_loop s 1 cs) (fun y =>
        match y with
        | inr (o, b) => sret (notice ++ o0 ++ o, b)
        | inl (s1, o) =>
          if f SwInteractive then after (notice ++ o0 ++ o) (read_input s1 input) (fun o => o)
          else sret (notice ++ o0 ++ o, true)
        end)
      end)
  end).
End Main.
