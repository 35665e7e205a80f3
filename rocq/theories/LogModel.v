(** The log: include/utils/Logger.h, src/utils/Logger.cpp. *)
From Coq Require Import Ascii String.
From Verif Require Import Outcome WordsModel ExpModel.
Local Open Scope Z_scope.

(** What a thread does: LOG and VLOG (Logger.h:27-32; levels 1 and 2) and logContainer (Logger.h:88-114) with the text already formed; INDENT, DEDENT (Logger.h:42-43);
    setIndent (Logger.h:82); setLogLevel (Logger.h:67). *)
Inductive event := Log (level : Z) (msg : str) | Indent | Dedent | SetIndent (i : N) | SetLevel (v : Z).
(** The logger: logLevel, logEntries, the indentation of each thread (thread_local, Logger.cpp:16), and what was written to std::cout. *)
Record logger := { g_level : Z; g_entries : list (Z * str); g_indent : nat -> N; g_out : str }.
(** The constructor, Logger.h:117, and setLogLevel before the run. *)
Definition log_new (level : Z) : logger := {| g_level := level; g_entries := []; g_indent := fun _ => 0%N; g_out := [] |}.
(** indent, Logger.cpp:51-56. *)
Definition tab : ascii := ascii_of_N 9.
Definition tabs (n : N) : str := repeat tab (N.to_nat n).
Definition put {A} (f : nat -> A) (t : nat) (a : A) : nat -> A := fun u => if Nat.eqb u t then a else f u.
(** One event of thread [t].  addLogEntry, Logger.cpp:18-28.  Simplified: an entry and its text are added in one step, which is faithful for stored entries (each
    has its own stream) but not for the text of several threads on std::cout; release build, so that decIndent (Logger.h:77-80) has no check. *)
Definition log_step (s : logger) (te : nat * event) : logger :=
  let '(t, e) := te in
  match e with
  | Log l m =>
      if l <=? Z.abs (g_level s)
      then if g_level s <=? -1
           then {| g_level := g_level s; g_entries := g_entries s; g_indent := g_indent s; g_out := g_out s ++ tabs (g_indent s t) ++ m |}
           else {| g_level := g_level s; g_entries := g_entries s ++ [(l, tabs (g_indent s t) ++ m)]; g_indent := g_indent s; g_out := g_out s |}
      else s
  | Indent => if 1 <=? Z.abs (g_level s) then {| g_level := g_level s; g_entries := g_entries s; g_indent := put (g_indent s) t (wrap 32 (g_indent s t + 1)); g_out := g_out s |} else s
  | Dedent => if 1 <=? Z.abs (g_level s) then {| g_level := g_level s; g_entries := g_entries s; g_indent := put (g_indent s) t (wrap 32 (g_indent s t + 2 ^ 32 - 1)); g_out := g_out s |} else s
  | SetIndent i => {| g_level := g_level s; g_entries := g_entries s; g_indent := put (g_indent s) t (wrap 32 i); g_out := g_out s |}
  | SetLevel v => {| g_level := v; g_entries := g_entries s; g_indent := g_indent s; g_out := g_out s |}
  end.
Definition log_run (s : logger) (es : list (nat * event)) : logger := fold_left log_step es s.
(** printLog with a level, Logger.cpp:34-49: what is written. *)
Definition print_at (s : logger) (level : Z) : str :=
  if level =? 0 then [] else concat (map (fun en => if fst en <=? level then snd en else []) (g_entries s)).
(** printLog, Logger.cpp:30-32. *)
Definition print_log (s : logger) : str := print_at s (g_level s).
