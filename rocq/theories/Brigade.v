(** The ranks of one brigade working through their list of points with a
    results directory: ggce/executors/petsc4py/solvers.py:104-122, 146-235 and
    base.py:543-545, as a transition system.

    A rank looks for the file of its current point (path.exists()); if there is
    one it loads it and goes on; otherwise it enters the collective operations
    (assembly, solve, barrier, gather, bcast on the communicator of the
    brigade).  These are merged into one: it happens when all ranks of the
    brigade have entered, whatever points they are working on (MPI matches
    collective calls by their order), and nobody leaves before.  Then rank 0
    writes the file (it is created, then filled) while the others go on. *)
From Coq Require Import String ZArith List Bool.
From Verif Require Import Base Cache.
Import ListNotations.
Open Scope list_scope.
Open Scope nat_scope.

Inductive phase := Check | Load | Coll | Create | Write | Failed.

Record bstate := mkB { ranks : nat -> nat * phase; files : dir unit }.

Definition upd (f : nat -> nat * phase) (r : nat) (x : nat * phase) : nat -> nat * phase :=
  fun r' => if Nat.eqb r' r then x else f r'.

(** What a rank finds out at a point, or any other step; steps of others. *)
Inductive label := Found (r j : nat) | Missing (r j : nat) | Internal | Outside.

Section Brigade.
(** Number of ranks; the file names of the points; names that other brigades
    may write. *)
Variable p : nat.
Variable jobs : list string.
Variable others : string -> Prop.

Inductive step : bstate -> label -> bstate -> Prop :=
| step_found : forall s r j k c, r < p -> ranks s r = (j, Check) -> nth_error jobs j = Some k -> fget k (files s) = Some c ->
    step s (Found r j) (mkB (upd (ranks s) r (j, Load)) (files s))
| step_missing : forall s r j k, r < p -> ranks s r = (j, Check) -> nth_error jobs j = Some k -> fget k (files s) = None ->
    step s (Missing r j) (mkB (upd (ranks s) r (j, Coll)) (files s))
| step_load : forall s r j k, r < p -> ranks s r = (j, Load) -> nth_error jobs j = Some k -> fget k (files s) = Some (Complete tt) ->
    step s Internal (mkB (upd (ranks s) r (S j, Check)) (files s))
| step_load_torn : forall s r j k, r < p -> ranks s r = (j, Load) -> nth_error jobs j = Some k -> fget k (files s) = Some Torn ->
    step s Internal (mkB (upd (ranks s) r (j, Failed)) (files s))
| step_collective : forall s, 0 < p -> (forall r, r < p -> snd (ranks s r) = Coll) ->
    step s Internal (mkB (fun r => if Nat.eqb r 0 then (fst (ranks s r), Create) else (S (fst (ranks s r)), Check)) (files s))
| step_create : forall s j k, 0 < p -> ranks s 0 = (j, Create) -> nth_error jobs j = Some k ->
    step s Internal (mkB (upd (ranks s) 0 (j, Write)) (fput k Torn (files s)))
| step_write : forall s j k, 0 < p -> ranks s 0 = (j, Write) -> nth_error jobs j = Some k ->
    step s Internal (mkB (upd (ranks s) 0 (S j, Check)) (fput k (Complete tt) (files s)))
| step_outside : forall s k c, others k -> step s Outside (mkB (ranks s) (fput k c (files s))).

(** All ranks at the first point. *)
Definition start (d : dir unit) : bstate := mkB (fun _ => (0, Check)) d.

Inductive run : bstate -> list label -> bstate -> Prop :=
| run_nil : forall s, run s [] s
| run_cons : forall s l s' ls s2, step s l s' -> run s' ls s2 -> run s (l :: ls) s2.

(** The loop is over. *)
Definition finished (s : bstate) : Prop := forall r, r < p -> ranks s r = (List.length jobs, Check).
End Brigade.
