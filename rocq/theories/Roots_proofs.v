(** Lemmas for solvers and roots. *)
From Coq Require Import String ZArith List Bool Lia.
From Verif Require Import Base Config Model Space Render Term Equation System Cache Checkpoint Roots Spec_checkpoint Checkpoint_proofs.
Import ListNotations.
Open Scope list_scope.

Section Roots.
Context {T : Type}.
Variable ord : string -> list vec -> list vec.

Lemma put_same : forall r (d : cdir T) k, put_root r d k r = d.
Proof. intros. unfold put_root. rewrite String.eqb_refl. reflexivity. Qed.
Lemma put_other : forall r x (d : cdir T) k, x <> r -> put_root r d k x = k x.
Proof. intros r x d k H. unfold put_root. apply String.eqb_neq in H. rewrite H. reflexivity. Qed.

(** The root whose files a new solver may write. *)
Definition owner (s : option (rsystem T)) (root : option string) : option string :=
  match s with Some s => rs_root s | None => root end.

Lemma recheckpoint_other : forall (s : rsystem T) k r, rs_root s <> Some r -> recheckpoint s k r = k r.
Proof. intros s k r H. unfold recheckpoint. destruct (rs_root s) as [r'|]; [|reflexivity]. apply put_other. congruence. Qed.
Lemma solver_other : forall s root (k : disk T) r, owner s root <> Some r -> fst (solver_init ord s root k) r = k r.
Proof.
  intros [s|] root k r H; cbn [owner] in H.
  - cbn [solver_init fst]. apply recheckpoint_other. exact H.
  - destruct root as [r'|]; [|reflexivity]. cbn [solver_init]. destruct (from_checkpoint ord (k r')) as [w x]. destruct x as [p|e]; cbn [fst].
    + rewrite recheckpoint_other by exact H. apply put_other. congruence.
    + apply put_other. congruence.
Qed.

Lemma recheckpoint_files : forall (s : system T) p k r, same_system s p -> files_of s (k r) -> files_of s (recheckpoint (mkRs p (Some r)) k r).
Proof.
  intros s p k r [_ [G [FA E]]] F. unfold recheckpoint. cbn [rs_root rs_sys]. rewrite put_same, G, FA, E. apply checkpoint_files; [right; reflexivity|exact F].
Qed.

Lemma solver_loads : forall (s : system T) k r, prime_system ord (s_model s) = Ok s -> files_of s (k r) ->
  exists k' p, solver_init ord None (Some r) k = (k', Ok (mkRs p (Some r))) /\ same_system s p /\ files_of s (k' r).
Proof.
  intros s k r E F. destruct (reload_files ord s (k r) E F) as [w [m' [ER [SA FW]]]]. cbn [solver_init]. rewrite ER.
  do 2 eexists. split; [reflexivity|]. assert (SS : same_system s (mkPy m' (s_gen s) (Some (s_fargs s)) (s_eqs s) default_lim)) by (repeat split; apply SA).
  split; [exact SS|]. apply recheckpoint_files; [exact SS|]. rewrite put_same. exact FW.
Qed.

Lemma solver_files : forall (s : system T) sys root k r, prime_system ord (s_model s) = Ok s -> files_of s (k r) ->
  (forall x, sys = Some x -> rs_root x = Some r -> same_system s (rs_sys x)) -> files_of s (fst (solver_init ord sys root k) r).
Proof.
  intros s sys root k r E F H. destruct sys as [x|].
  - cbn [solver_init fst]. specialize (H x eq_refl). destruct x as [p [r'|]]; cbn [rs_root rs_sys] in H.
    + destruct (String.eqb_spec r' r) as [->|NE]; [apply recheckpoint_files; auto|]. rewrite recheckpoint_other; [exact F|]. cbn [rs_root]. congruence.
    + exact F.
  - destruct root as [r'|]; [|exact F]. destruct (String.eqb_spec r' r) as [->|NE].
    + destruct (solver_loads s k r E F) as [k' [p [EQ [_ FK]]]]. rewrite EQ. exact FK.
    + rewrite solver_other; [exact F|]. cbn [owner]. congruence.
Qed.

Lemma solvers_files : forall (s : system T) r ops k, prime_system ord (s_model s) = Ok s -> files_of s (k r) ->
  (forall x root, In (Some x, root) ops -> rs_root x = Some r -> same_system s (rs_sys x)) -> files_of s (solvers ord ops k r).
Proof.
  intros s r ops. induction ops as [|[sys root] ops IH]; intros k E F H; [exact F|]. cbn [solvers]. apply IH; [exact E| |].
  - apply solver_files; [exact E|exact F|]. intros x ->. apply (H x root). left. reflexivity.
  - intros x rt I. apply (H x rt). right. exact I.
Qed.

Lemma solvers_other : forall r ops (k : disk T), (forall s root, In (s, root) ops -> owner s root <> Some r) -> solvers ord ops k r = k r.
Proof.
  intros r ops. induction ops as [|[s root] ops IH]; intros k H; [reflexivity|]. cbn [solvers]. rewrite IH.
  - apply solver_other. apply H. left. reflexivity.
  - intros. apply H. right. assumption.
Qed.
End Roots.
