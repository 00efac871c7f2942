(** Timing and log messages: utils.py:86-142, the timed blocks of
    system.py:415-438, and the messages that pass [elapsed=dt] to loguru
    (petsc4py/base.py:329 and 428-432, petsc4py/solvers.py:175).

    Clock readings are rational numbers and divisions are exact.  Of loguru: a
    message with keyword arguments is passed through str.format unless the logger
    is disabled or no handler takes its level; a message without arguments is
    not. *)
From Coq Require Import String Ascii ZArith QArith List Bool.
From Verif Require Import Base Render Keys Model Space Term Equation System Ring Petsc.
From Verif Require Logger.
Import ListNotations.
Open Scope list_scope.
Open Scope Z_scope.

(** f"{x:.02f}" and f"{x:.2f}": as [fmt10], with two digits *)
Definition fmt2 (x : Q) : string :=
  let n := round_half_even (Z.abs (Qnum x) * 100) (Z.pos (Qden x)) in
  append (if Qnum x <? 0 then "-" else "") (append (str_int (n / 100)) (append "." (digits 2 (n mod 100)))).

Definition below (x y : Q) : bool := negb (Qle_bool y x).

(** utils.py:86-109 [_elapsed_time_str]; the second comparison of each elif
    holds already *)
Definition elapsed_time (dt : Q) : Q * string :=
  if below dt 10 then (dt, "s"%string)
  else if below dt 600 then ((dt / 60)%Q, "m"%string)
  else if below dt 36000 then ((dt / 3600)%Q, "h"%string)
  else ((dt / 86400)%Q, "d"%string).

(** utils.py:112-116 [_adjust_log_msg_for_time] *)
Definition adjust_log_msg_for_time (msg : string) (elapsed : option Q) : string :=
  match elapsed with
  | None => msg
  | Some dt => let '(x, units) := elapsed_time dt in
               append "[" (append (fmt2 x) (append " " (append units (append "] " msg))))
  end.

(** A program reads the clock and writes messages: how often the clock was read
    and what was written, oldest first. *)
Record world := mkW { ticks : nat; lines : list string }.
Definition prog (A : Type) := world -> result A * world.
Definition then_ {A B} (p : prog A) (f : A -> prog B) : prog B :=
  fun s => match p s with (Ok a, s') => f a s' | (Err e, s') => (Err e, s') end.
Definition pure {A} (r : result A) : prog A := fun s => (r, s).
(** [logger.debug(msg)], which does not raise *)
Definition say (msg : string) : prog unit := fun s => (Ok tt, mkW (ticks s) (lines s ++ [msg])).

Section Clock.
Variable clock : nat -> Q.
(** time.time() *)
Definition now : prog Q := fun s => (Ok (clock (ticks s)), mkW (S (ticks s)) (lines s)).

(** utils.py:119-142 [timeit]: the body of the with statement, then in the
    finally clause the message; an exception of the stream replaces the outcome
    of the body *)
Definition timeit {A} (stream : string -> prog unit) (msg : string) (body : prog A) : prog A :=
  fun s =>
  match now s with
  | (Err e, s1) => (Err e, s1)
  | (Ok t0, s1) =>
    let '(r, s2) := body s1 in
    match then_ now (fun t1 => stream (adjust_log_msg_for_time msg (Some (t1 - t0)%Q))) s2 with
    | (Ok _, s3) => (r, s3)
    | (Err e, s3) => (Err e, s3)
    end
  end.

(** system.py:415-438 [_prime_system] without a root directory, with its timed
    blocks.  The messages written inside of the blocks are left out. *)
Definition prime_timed {T} (ord : string -> list vec -> list vec) (m : model T) : prog (system T) :=
  then_ (timeit say "Legal configurations generated" (pure (generate_space m))) (fun space =>
  then_ (timeit say "Generalized equations initialized" (pure (generalized ord m space))) (fun gf =>
  then_ (timeit say "Equations initialized" (pure (full_equations (snd gf) (fst gf)))) (fun eqs =>
  then_ (timeit say "Final checks" (pure (final_checks eqs))) (fun _ =>
  pure (Ok (mkSys m (fst gf) (snd gf) eqs)))))).
End Clock.

(** * Messages with keyword arguments *)
(** The text before the first character that satisfies [stop], that character and
    the rest. *)
Fixpoint split_at (stop : ascii -> bool) (s : string) : string * option (ascii * string) :=
  match s with
  | EmptyString => (EmptyString, None)
  | String c r => if stop c then (EmptyString, Some (c, r)) else let '(a, b) := split_at stop r in (String c a, b)
  end.
Definition is_digit (c : ascii) : bool := (48 <=? Z.of_nat (nat_of_ascii c)) && (Z.of_nat (nat_of_ascii c) <=? 57).
Fixpoint numeral (s : string) : bool := match s with EmptyString => true | String c r => is_digit c && numeral r end.
Definition ends_name (c : ascii) : bool := existsb (Ascii.eqb c) ["."; "["; ":"; "!"]%char.

(** One replacement field of str.format(elapsed=dt): [shown] is what a field that
    names the argument gives, from the rest of the field.  Without positional
    arguments an empty or numeric name raises IndexError. *)
Definition field (shown : string -> result string) (f : string) : result string :=
  let '(name, rest) := split_at ends_name f in
  if String.eqb name "elapsed" then shown (match rest with None => EmptyString | Some (c, r) => String c r end)
  else if numeral name then Err IndexError else Err KeyError.

(** str.format.  Fields nested in the format specification of a field are not
    modelled. *)
Fixpoint str_format (shown : string -> result string) (fuel : nat) (s : string) : result string :=
  match fuel with
  | O => Ok s
  | S n =>
    match s with
    | EmptyString => Ok EmptyString
    | String "{" (String "{" r) => t <- str_format shown n r ;; Ok (String "{" t)
    | String "{" r =>
      match split_at (Ascii.eqb "}") r with
      | (_, None) => Err ValueError
      | (f, Some (_, r')) => v <- field shown f ;; t <- str_format shown n r' ;; Ok (append v t)
      end
    | String "}" (String "}" r) => t <- str_format shown n r ;; Ok (String "}" t)
    | String "}" _ => Err ValueError
    | String c r => t <- str_format shown n r ;; Ok (String c t)
    end
  end.

(** Whether a message of a level reaches the formatting. *)
Definition taken (st : Logger.lstate) (l : Logger.lvl) : bool :=
  Logger.enabled st &&
  existsb (fun h => Nat.leb (match h with Logger.Stream _ _ => Logger.severity Logger.Debug | Logger.Callback _ v => Logger.severity v | Logger.Exit => Logger.severity Logger.Critical end) (Logger.severity l)) (Logger.handlers st).
(** [logger.debug(msg, elapsed=dt)] *)
Definition debug_elapsed (st : Logger.lstate) (shown : string -> result string) (msg : string) : result unit :=
  if taken st Logger.Debug then _ <- str_format shown (S (String.length msg)) msg ;; Ok tt else Ok tt.

(** base.py:329, at the end of [_scaffold], and petsc4py/solvers.py:175 *)
Definition assembled (st : Logger.lstate) (shown : string -> result string) : result unit := debug_elapsed st shown "PETSc matrix assembled".
Definition contexts (st : Logger.lstate) (shown : string -> result string) : result unit := debug_elapsed st shown "KSP and PC contexts initialized".

(** base.py:331-432 [_scaffold_from_disk] with its last message, which holds the
    name of the directory *)
Definition from_disk_logged {K : cring} {T} (st : Logger.lstate) (shown : string -> result string) (name : string) (fmt : T -> string) (g0_at : T * T -> K) (eta : T)
    (choose : list string -> string) (d : mdir K) (p : T * T) : result (nat * list (nat * nat * K) * K) :=
  r <- from_disk fmt g0_at eta choose d p ;;
  _ <- debug_elapsed st shown (append "PETSc matrix assembled, built from disk at: " name) ;;
  Ok r.
