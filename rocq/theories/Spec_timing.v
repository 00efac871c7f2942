(** Specification vocabulary for timed blocks and log messages (C79). *)
From Coq Require Import String Ascii ZArith QArith Qabs List.
From Verif Require Import Spec_names.
From Verif Require Base.
Import ListNotations.
Open Scope Q_scope.

(** The unit a duration is shown in, and its length in seconds. *)
Definition shown_in (dt : Q) (u : string) (seconds : Q) : Prop :=
  (dt < 10 /\ u = "s"%string /\ seconds = 1) \/
  (10 <= dt /\ dt < 600 /\ u = "m"%string /\ seconds = 60) \/
  (600 <= dt /\ dt < 36000 /\ u = "h"%string /\ seconds = 3600) \/
  (36000 <= dt /\ u = "d"%string /\ seconds = 86400).

(** A line "[number unit] message" whose number has two decimals and is [dt] in
    the right unit, up to half a hundredth; [v] is the duration in seconds that
    the line shows. *)
Definition stamped (dt : Q) (msg line : string) (v : Q) : Prop :=
  exists num u seconds (neg : bool) n,
    line = ("[" ++ num ++ " " ++ u ++ "] " ++ msg)%string /\
    read_decimal num = Some (neg, n, 2%nat) /\ (0 <= n)%Z /\
    v == (if neg then - (1) else 1) * (inject_Z n / 100) * seconds /\
    (neg = true <-> dt < 0) /\
    shown_in dt u seconds /\
    Qabs (dt - v) <= seconds / 200.

(** The messages of the stages that build a system. *)
Definition stages : list string :=
  ["Legal configurations generated"; "Generalized equations initialized"; "Equations initialized"; "Final checks"]%string.

(** No braces. *)
Fixpoint plain (s : string) : Prop :=
  match s with
  | EmptyString => True
  | String c r => c <> "{"%char /\ c <> "}"%char /\ plain r
  end.
(** A name in braces that str.format takes as the name of an argument: no braces
    and none of the characters that end the name. *)
Fixpoint bare (s : string) : Prop :=
  match s with
  | EmptyString => True
  | String c r => ~ List.In c ["{"; "}"; "."; "["; ":"; "!"]%char /\ bare r
  end.

(** The parts a message with keyword arguments consists of: a character that is
    not a brace, two braces that stand for one, a field with the name of an
    argument and what follows the name. *)
Inductive part := Letter (c : ascii) | Opening | Closing | Named (name rest : string).
Definition written (p : part) : string :=
  match p with
  | Letter c => String c ""
  | Opening => "{{"
  | Closing => "}}"
  | Named name rest => "{" ++ name ++ rest ++ "}"
  end.
Fixpoint text (ps : list part) : string :=
  match ps with nil => "" | (p :: r)%list => written p ++ text r end.
Definition proper (p : part) : Prop :=
  match p with
  | Letter c => c <> "{"%char /\ c <> "}"%char
  | Named name rest => bare name /\ plain rest /\ (rest = ""%string \/ exists c r, rest = String c r /\ List.In c ["."; "["; ":"; "!"]%char)
  | _ => True
  end.
Definition decimal_digits : list ascii := ["0"; "1"; "2"; "3"; "4"; "5"; "6"; "7"; "8"; "9"]%char.
(** What a part gives, if [elapsed] is the only argument and [shown] what a field
    of that name gives. *)
Inductive gives (shown : string -> Base.result string) : part -> Base.result string -> Prop :=
| gives_letter : forall c, gives shown (Letter c) (Base.Ok (String c ""))
| gives_opening : gives shown Opening (Base.Ok "{"%string)
| gives_closing : gives shown Closing (Base.Ok "}"%string)
| gives_elapsed : forall rest, gives shown (Named "elapsed" rest) (shown rest)
| gives_number : forall name rest, (forall c, List.In c (list_ascii_of_string name) -> List.In c decimal_digits) -> gives shown (Named name rest) (Base.Err Base.IndexError)
| gives_unknown : forall name rest c, name <> "elapsed"%string -> List.In c (list_ascii_of_string name) -> ~ List.In c decimal_digits -> gives shown (Named name rest) (Base.Err Base.KeyError).
(** The parts one after the other, up to the first that raises. *)
Inductive formats (shown : string -> Base.result string) : list part -> Base.result string -> Prop :=
| formats_nil : formats shown nil (Base.Ok ""%string)
| formats_err : forall p ps e, gives shown p (Base.Err e) -> formats shown (p :: ps) (Base.Err e)
| formats_later : forall p ps a e, gives shown p (Base.Ok a) -> formats shown ps (Base.Err e) -> formats shown (p :: ps) (Base.Err e)
| formats_ok : forall p ps a b, gives shown p (Base.Ok a) -> formats shown ps (Base.Ok b) -> formats shown (p :: ps) (Base.Ok (a ++ b)%string).
