(** Several processes on one directory: the file operations of
    ggce/executors/solvers.py:124-142, 318-347 (results of points) and
    ggce/engine/system.py:283-438 (files of a System), interleaved.

    A process is a program over the directory.  [open(path, "wb")] truncates;
    the contents are there when the file is closed, which in CPython is at the
    end of the [pickle.dump] or [with] statement.  Files that two processes write
    at the same time are only meaningful if both write the same contents: then
    the file is complete when the last one has closed it. *)
From Coq Require Import String ZArith List Bool.
From Verif Require Import Base Config Model Space Render Term Equation System Cache Checkpoint.
Import ListNotations.
Open Scope list_scope.

Section Prog.
Context {V A : Type}.
Inductive prog :=
| Ret (a : A)
| Raise (x : exn)
| Exists (f : string) (k : bool -> prog)             (* path.exists() *)
| Load (f : string) (x : exn) (k : V -> prog)        (* load(open(path)); [x] if incomplete *)
| Truncate (f : string) (k : prog)                   (* open(path, "w") *)
| Close (f : string) (v : V) (k : prog).             (* dump and close *)

(** One operation; a finished process does nothing. *)
Definition step (p : prog) (d : dir V) : prog * dir V :=
  match p with
  | Ret _ | Raise _ => (p, d)
  | Exists f k => (k (match fget f d with Some _ => true | None => false end), d)
  | Load f x k => (match fget f d with None => Raise FileNotFoundError | Some Torn => Raise x | Some (Complete v) => k v end, d)
  | Truncate f k => (k, fput f Torn d)
  | Close f v k => (k, fput f (Complete v) d)
  end.

(** The process has the file open for writing. *)
Definition writing (f : string) (p : prog) : bool := match p with Close g _ _ => String.eqb g f | _ => false end.

(** A turn of process [i].  When it closes a file that another process has open,
    the file may still be incomplete (the other has truncated it after a part
    was written): the flag. *)
Definition turn (c : nat * bool) (s : list prog * dir V) : list prog * dir V :=
  match nth_error (fst s) (fst c) with
  | None => s
  | Some p =>
      let '(p', d') := step p (snd s) in
      let ps := setn (fst s) (fst c) p' in
      (ps, match p with Close f _ _ => if snd c && existsb (writing f) ps then fput f Torn d' else d' | _ => d' end)
  end.

(** The processes and the directory after a schedule: the processes that perform
    the next operations, in order.  A process that is killed does not appear any
    more. *)
Definition run (l : list (nat * bool)) (s : list prog * dir V) : list prog * dir V := fold_left (fun s c => turn c s) l s.

(** A process alone. *)
Fixpoint solo (p : prog) (d : dir V) : result A * dir V :=
  match p with
  | Ret a => (Ok a, d)
  | Raise x => (Err x, d)
  | Exists f k => solo (k (match fget f d with Some _ => true | None => false end)) d
  | Load f x k => match fget f d with None => (Err FileNotFoundError, d) | Some Torn => (Err x, d) | Some (Complete v) => solo (k v) d end
  | Truncate f k => solo k (fput f Torn d)
  | Close f v k => solo k (fput f (Complete v) d)
  end.
End Prog.
Arguments prog : clear implicits.

(** * Results *)
Section Results.
Context {P V : Type}.
Variable key : P -> string.
Variable calc : P -> result V.

(** solvers.py:335-347 [solve] with a results directory *)
Definition p_solve {A} (p : P) (k : V -> prog V A) : prog V A :=
  Exists (key p) (fun b =>
    if b then Load (key p) EOFError k
    else match calc p with
         | Err x => Raise x
         | Ok g => Truncate (key p) (Close (key p) g (k g))
         end).

(** solvers.py:171-174: the points of one rank *)
Fixpoint p_rank (s : list V) (jobs : list P) : prog V (list V) :=
  match jobs with
  | [] => Ret s
  | p :: r => p_solve p (fun v => p_rank (s ++ [v]) r)
  end.
End Results.

(** * Files of a System *)
Section Files.
Context {T : Type}.
Variable ord : string -> list vec -> list vec.

Inductive obj := OJson (j : json T) | OEqs (g : geqs T) | OArgs (a : sdict (list vec)).
Definition prg := prog obj (pysystem T).

Definition f_model : string := "model.json".
Definition f_gen : string := "generalized_equations.pkl".
Definition f_args : string := "f_arg_list.pkl".
Definition f_eqs : string := "equations.pkl".

(** system.py:283-293 *)
Definition p_save (m : model T) (k : prg) : prg := Truncate f_model (Close f_model (OJson (json_of_model m)) k).

(** system.py:327-337 *)
Definition p_dump (f : string) (o : option obj) (k : prg) : prg :=
  match o with
  | None => k
  | Some v => Exists f (fun b => if b then k else Truncate f (Close f v k))
  end.

(** system.py:295-338 *)
Definition p_checkpoint (lim : Z) (gen : option (geqs T)) (fargs : option (sdict (list vec))) (eqs : option (geqs T)) (k : prg) : prg :=
  if too_many lim eqs then k
  else p_dump f_gen (option_map OEqs gen) (p_dump f_args (option_map OArgs fargs) (p_dump f_eqs (option_map OEqs eqs) k)).

(** system.py:381-438 *)
Definition p_init (m : model T) (gen : option (geqs T)) (fargs : option (sdict (list vec))) (eqs : option (geqs T)) (lim : Z)
    (k : pysystem T -> prg) : prg :=
  p_save m
    match (match gen with
           | Some g => Ok (g, fargs)
           | None => space <- generate_space m ;; ' (g, fl) <- generalized_on fargs ord m space ;; Ok (g, Some fl)
           end) with
    | Err x => Raise x
    | Ok (g, fl) =>
      p_checkpoint lim (Some g) fl eqs
        match (match eqs with
               | Some e => Ok e
               | None => match fl with Some fl => full_equations fl g | None => Err AttributeError end
               end) with
        | Err x => Raise x
        | Ok e => p_checkpoint lim (Some g) fl (Some e)
                    match final_checks e with Ok _ => k (mkPy m g fl e lim) | Err x => Raise x end
        end
    end.

(** system.py:356-371: an optional pickle *)
Definition p_opt (f : string) (k : option obj -> prg) : prg :=
  Exists f (fun b => if b then Load f EOFError (fun v => k (Some v)) else k None).
Definition as_eqs (o : option obj) (k : option (geqs T) -> prg) : prg :=
  match o with None => k None | Some (OEqs g) => k (Some g) | Some _ => Raise TypeError end.
Definition as_args (o : option obj) (k : option (sdict (list vec)) -> prg) : prg :=
  match o with None => k None | Some (OArgs a) => k (Some a) | Some _ => Raise TypeError end.

(** system.py:340-379 *)
Definition p_reload (k : pysystem T -> prg) : prg :=
  Exists f_model (fun b =>
    if b then Load f_model ValueError (fun v =>
      match v with
      | OJson j =>
        match model_of_json j with
        | Err x => Raise x
        | Ok m =>
          p_opt f_gen (fun o => as_eqs o (fun g =>
          p_opt f_args (fun o => as_args o (fun fl =>
          p_opt f_eqs (fun o => as_eqs o (fun e =>
            p_init m g fl e default_lim k))))))
        end
      | _ => Raise TypeError
      end)
    else Raise SystemExit).

(** [System(model, root=root, chkpt_lim=lim)] followed by [Solver(system)],
    which checkpoints again (solvers.py:74-76), and [Solver(root=root)] *)
Definition p_again (s : pysystem T) : prg := p_checkpoint (py_lim s) (Some (py_gen s)) (py_fargs s) (Some (py_eqs s)) (Ret s).
Definition p_new_solver (m : model T) (lim : Z) : prg := p_init m None None None lim p_again.
Definition p_root_solver : prg := p_reload p_again.
End Files.
Arguments obj T : clear implicits.
Arguments prg T : clear implicits.
