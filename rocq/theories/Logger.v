(** ggce/logger.py: the sinks added to loguru's logger, the helpers that
    reconfigure them and the context managers.

    Of loguru: a disabled logger drops every message; an enabled one hands it to
    the handlers in the order they were added, each of which ignores messages
    below its level (DEBUG unless given) or refused by its filter; SystemExit
    raised by a sink is not caught.  Levels other than loguru's own, formats and
    colours are left out. *)
From Coq Require Import List Bool PeanoNat.
Import ListNotations.
Open Scope list_scope.
Open Scope nat_scope.

Inductive lvl := Trace | Debug | Info | Success | Warning | Error | Critical.
Definition severity (l : lvl) : nat :=
  match l with Trace => 5 | Debug => 10 | Info => 20 | Success => 25 | Warning => 30 | Error => 40 | Critical => 50 end.
Definition lvl_eqb (a b : lvl) : bool := Nat.eqb (severity a) (severity b).

(** What a message does. *)
Inductive effect := Stdout | Stderr | DummyWarning | DummyError.

(** logger.py:21-28 [generic_filter]: "all" or a list of level names *)
Inductive lfilter := All | Names (ls : list lvl).
Definition passes (f : lfilter) (l : lvl) : bool :=
  match f with All => true | Names ls => existsb (lvl_eqb l) ls end.

(** [logger.add(...)]: a stream with a filter, a callback with a level, or the
    sink that ends the program *)
Inductive handler := Stream (e : effect) (f : lfilter) | Callback (e : effect) (level : lvl) | Exit.
Definition reacts (h : handler) (l : lvl) : bool :=
  match h with
  | Stream _ f => (severity Debug <=? severity l) && passes f l
  | Callback _ v => severity v <=? severity l
  | Exit => severity Critical <=? severity l
  end.

(** The handlers for one message: effects and whether the program ends. *)
Fixpoint emit (hs : list handler) (l : lvl) : list effect * bool :=
  match hs with
  | [] => ([], false)
  | h :: r =>
    if reacts h l then
      match h with
      | Exit => ([], true)
      | Stream e _ | Callback e _ => let '(es, x) := emit r l in (e :: es, x)
      end
    else emit r l
  end.

Record conf := mkConf { stdout_filter : lfilter; stderr_filter_warnings : lfilter; stderr_filter : lfilter; standard_warnings : bool }.

Section Rank.
(** logger.py:11-18 *)
Variable rank : nat.

(** logger.py:88-95: "DEBUG" in the list; "all" is the string, which does not
    contain "DEBUG" *)
Definition has_debug (f : lfilter) : bool := match f with All => false | Names ls => existsb (lvl_eqb Debug) ls end.
Definition without_debug (f : lfilter) : lfilter :=
  match f with All => All | Names ls => Names (filter (fun x => negb (lvl_eqb x Debug)) ls) end.

(** logger.py:51-128 [configure_loggers]: all handlers are removed first.  Both
    sinks for CRITICAL (sys.exit and COMM.Abort) end the program. *)
Definition configure_loggers (c : conf) : list handler :=
  (if has_debug (stdout_filter c) then [Stream Stdout (Names [Debug])] else []) ++
  (if Nat.eqb rank 0 then [Stream Stdout (if has_debug (stdout_filter c) then without_debug (stdout_filter c) else stdout_filter c);
                           Stream Stdout (stderr_filter_warnings c)] else []) ++
  [Stream Stderr (stderr_filter c); Exit] ++
  (if standard_warnings c then [Callback DummyWarning Warning; Callback DummyError Error] else []).

(** logger.py:131-152 *)
Definition with_defaults (out : list lvl) (w : bool) : conf := mkConf (Names out) (Names [Warning]) (Names [Error; Critical]) w.
Definition DEBUG : conf := with_defaults [Debug; Info; Success] false.
Definition TESTING_MODE : conf := with_defaults [Debug; Info; Success] true.
Definition DISABLE_DEBUG : conf := with_defaults [Info; Success] false.

(** The logger. *)
Record lstate := mkL { handlers : list handler; enabled : bool }.
Definition set_conf (c : conf) (s : lstate) : lstate := mkL (configure_loggers c) (enabled s).
(** logger.disable(""), logger.enable("") *)
Definition activate (b : bool) (s : lstate) : lstate := mkL (handlers s) b.
(** logger.py:184: after the import *)
Definition imported : lstate := mkL (configure_loggers DISABLE_DEBUG) true.

Definition log (s : lstate) (l : lvl) : list effect * bool := if enabled s then emit (handlers s) l else ([], false).

(** logger.py:155-181: the context managers *)
Inductive manager := disable_logger | testing_mode | debug.
Definition enter (m : manager) (s : lstate) : lstate :=
  match m with disable_logger => activate false s | testing_mode => set_conf TESTING_MODE s | debug => set_conf DEBUG s end.
Definition leave (m : manager) (s : lstate) : lstate :=
  match m with disable_logger => activate true s | testing_mode => set_conf DEBUG s | debug => set_conf DISABLE_DEBUG s end.

(** Programs: messages, calls of the configuration functions, exceptions, with
    statements (whose exit is in a finally clause). *)
Inductive command := Log (l : lvl) | Configure (c : conf) | Raise | With (m : manager) (body : list command).
Inductive status := Finished | Raised | Ended.

(** Messages with their effects, final state, how it ended. *)
Definition outcome := (list (lvl * list effect) * lstate * status)%type.
Fixpoint exec (c : command) (s : lstate) {struct c} : outcome :=
  match c with
  | Log l => let '(es, x) := log s l in ([(l, es)], s, if x then Ended else Finished)
  | Configure c => ([], set_conf c s, Finished)
  | Raise => ([], s, Raised)
  | With m body =>
    let '(t, s1, x) := (fix run (cs : list command) (s : lstate) : outcome :=
        match cs with
        | [] => ([], s, Finished)
        | c :: r =>
          let '(t1, s1, x) := exec c s in
          match x with Finished => let '(t2, s2, y) := run r s1 in (t1 ++ t2, s2, y) | _ => (t1, s1, x) end
        end) body (enter m s) in
    (t, leave m s1, x)
  end.
Fixpoint run (cs : list command) (s : lstate) : outcome :=
  match cs with
  | [] => ([], s, Finished)
  | c :: r =>
    let '(t1, s1, x) := exec c s in
    match x with Finished => let '(t2, s2, y) := run r s1 in (t1 ++ t2, s2, y) | _ => (t1, s1, x) end
  end.
End Rank.
