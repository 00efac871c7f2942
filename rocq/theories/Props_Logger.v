(** Logging: C40. *)
From Coq Require Import List Bool PeanoNat Lia.
From Verif Require Import Logger Logger_proofs.
Import ListNotations.
Open Scope list_scope.
Open Scope nat_scope.

(** * Specification *)
(** Where a message is printed. *)
Definition printed (rank : nat) (debugging : bool) (l : lvl) : list effect :=
  match l with
  | Trace => []
  | Debug => if debugging then [Stdout] else []
  | Info | Success | Warning => if Nat.eqb rank 0 then [Stdout] else []
  | Error | Critical => [Stderr]
  end.
(** The dummy warnings of the testing mode. *)
Definition dummies (testing : bool) (l : lvl) : list effect :=
  if testing then match l with Warning => [DummyWarning] | Error => [DummyWarning; DummyError] | _ => [] end else [].
Definition ends (l : lvl) : bool := match l with Critical => true | _ => false end.
Definition prints (e : effect) : bool := match e with Stdout | Stderr => true | _ => false end.
Definition times (es : list effect) : nat := List.length (filter prints es).

(** Configurations made by the helpers; programs using only these. *)
Definition helper (c : conf) : Prop := c = DEBUG \/ c = TESTING_MODE \/ c = DISABLE_DEBUG.
Inductive plain : command -> Prop :=
| plain_log : forall l, plain (Log l)
| plain_conf : forall c, helper c -> plain (Configure c)
| plain_raise : plain Raise
| plain_with : forall m body, Forall plain body -> plain (With m body).
(** Programs that do not use disable_logger. *)
Inductive loud : command -> Prop :=
| loud_log : forall l, loud (Log l)
| loud_conf : forall c, loud (Configure c)
| loud_raise : loud Raise
| loud_with : forall m body, m <> disable_logger -> Forall loud body -> loud (With m body).

(** * Messages *)
Theorem C40_routing : forall rank l,
  log (imported rank) l = (printed rank false l, ends l) /\
  emit (configure_loggers rank DEBUG) l = (printed rank true l, ends l) /\
  emit (configure_loggers rank TESTING_MODE) l = (printed rank true l ++ dummies true l, ends l) /\
  emit (configure_loggers rank DISABLE_DEBUG) l = (printed rank false l, ends l).
Proof. intros [|rank] []; repeat split; reflexivity. Qed.
Print Assumptions C40_routing.

(** * Programs *)
(** Whatever a program does with the helpers and context managers: a message is
    printed at most once per rank, INFO, SUCCESS and WARNING only on rank 0, and
    a message is either dropped altogether or printed as above. *)
Theorem C40_programs : forall rank cs t s x, Forall plain cs -> run rank cs (imported rank) = (t, s, x) ->
  forall l es, In (l, es) t ->
    times es <= 1 /\
    (rank <> 0 -> l = Info \/ l = Success \/ l = Warning -> times es = 0) /\
    (es = [] \/ exists debugging testing, es = printed rank debugging l ++ dummies testing l).
Proof.
  intros rank cs t s x P E.
  set (I := fun s : lstate => exists c, helper c /\ handlers s = configure_loggers rank c).
  pose proof (run_logged rank plain I) as H.
  assert (R : logged I (run rank cs (imported rank))).
  { apply H; [| | | |exact P|].
    - intros m body Q. inversion Q; assumption.
    - intros c s0 Q _. inversion Q as [|c0 HC| |]; subst. exists c. split; [exact HC|reflexivity].
    - intros m body s0 _ [c [HC HH]]. destruct m; cbn [enter]; [exists c; auto|exists TESTING_MODE; unfold helper; auto|exists DEBUG; unfold helper; auto].
    - intros m body s0 _ [c [HC HH]]. destruct m; cbn [leave]; [exists c; auto|exists DEBUG; unfold helper; auto|exists DISABLE_DEBUG; unfold helper; auto].
    - exists DISABLE_DEBUG. unfold helper. auto. }
  rewrite E in R. destruct R as [_ [A _]]. intros l es L. destruct (A l es L) as [s' [[c [HC HH]] ->]]. unfold log. rewrite HH.
  destruct (enabled s'); cbn [fst]; [|split; [cbn; lia|]; split; [reflexivity|left; reflexivity]].
  destruct (C40_routing rank l) as [_ [R1 [R2 R3]]].
  destruct HC as [->|[->| ->]]; [rewrite R1|rewrite R2|rewrite R3]; cbn [fst].
  - split; [destruct rank, l; cbn; lia|]. split; [intros NZ [->|[->| ->]]; destruct rank; [lia|reflexivity|lia|reflexivity|lia|reflexivity]|].
    right. exists true, false. cbn. rewrite app_nil_r. reflexivity.
  - split; [destruct rank, l; cbn; lia|]. split; [intros NZ [->|[->| ->]]; destruct rank; [lia|reflexivity|lia|reflexivity|lia|reflexivity]|].
    right. exists true, true. reflexivity.
  - split; [destruct rank, l; cbn; lia|]. split; [intros NZ [->|[->| ->]]; destruct rank; [lia|reflexivity|lia|reflexivity|lia|reflexivity]|].
    right. exists false, false. cbn. rewrite app_nil_r. reflexivity.
Qed.
Print Assumptions C40_programs.

(** Exactly: the mode a message is logged in is the one set last, by a helper or
    by entering or leaving a context manager, and the logger is on unless
    disable_logger was entered after it was last left. *)
Record mode := mkMode { debugging : bool; testing : bool; on : bool }.
Inductive change := Set_debug (d t : bool) | Switch (b : bool).
Definition apply (c : change) (m : mode) : mode :=
  match c with Set_debug d t => mkMode d t (on m) | Switch b => mkMode (debugging m) (testing m) b end.
Definition at_enter (m : manager) : change :=
  match m with disable_logger => Switch false | testing_mode => Set_debug true true | debug => Set_debug true false end.
Definition at_leave (m : manager) : change :=
  match m with disable_logger => Switch true | testing_mode => Set_debug true false | debug => Set_debug false false end.
Definition message (rank : nat) (m : mode) (l : lvl) : list effect * bool :=
  if on m then (printed rank (debugging m) l ++ dummies (testing m) l, ends l) else ([], false).
(** [means c d t]: the helper that sets debugging [d] and testing [t]. *)
Definition means (c : conf) (d t : bool) : Prop :=
  c = DEBUG /\ d = true /\ t = false \/ c = TESTING_MODE /\ d = true /\ t = true \/ c = DISABLE_DEBUG /\ d = false /\ t = false.
Inductive does (rank : nat) : mode -> command -> list (lvl * list effect) -> mode -> status -> Prop :=
| does_log : forall m l, does rank m (Log l) [(l, fst (message rank m l))] m (if snd (message rank m l) then Ended else Finished)
| does_conf : forall m c d t, means c d t -> does rank m (Configure c) [] (apply (Set_debug d t) m) Finished
| does_raise : forall m, does rank m Raise [] m Raised
| does_with : forall m w body t m' x, does_all rank (apply (at_enter w) m) body t m' x -> does rank m (With w body) t (apply (at_leave w) m') x
with does_all (rank : nat) : mode -> list command -> list (lvl * list effect) -> mode -> status -> Prop :=
| all_nil : forall m, does_all rank m [] [] m Finished
| all_stop : forall m c r t m' x, does rank m c t m' x -> x <> Finished -> does_all rank m (c :: r) t m' x
| all_cons : forall m c r t1 m1 t2 m2 x, does rank m c t1 m1 Finished -> does_all rank m1 r t2 m2 x -> does_all rank m (c :: r) (t1 ++ t2) m2 x.

Definition conf_of (m : mode) : conf := if testing m then TESTING_MODE else if debugging m then DEBUG else DISABLE_DEBUG.
Definition mode_ok (m : mode) : Prop := testing m = true -> debugging m = true.
Definition state_of (rank : nat) (m : mode) : lstate := mkL (configure_loggers rank (conf_of m)) (on m).
Lemma log_mode : forall rank m l, mode_ok m -> log (state_of rank m) l = message rank m l.
Proof.
  intros rank [d t o] l K. unfold log, message, state_of. cbn [enabled handlers on]. destruct o; [|reflexivity]. destruct (C40_routing rank l) as [_ [R1 [R2 R3]]].
  unfold conf_of. cbn [testing debugging]. destruct t; [unfold mode_ok in K; cbn in K; rewrite (K eq_refl), R2; reflexivity|]. destruct d; [rewrite R1|rewrite R3]; cbn [dummies]; rewrite app_nil_r; reflexivity.
Qed.
Lemma enter_mode : forall rank w m, enter rank w (state_of rank m) = state_of rank (apply (at_enter w) m).
Proof. intros rank [] [d t o]; reflexivity. Qed.
Lemma leave_mode : forall rank w m, leave rank w (state_of rank m) = state_of rank (apply (at_leave w) m).
Proof. intros rank [] [d t o]; reflexivity. Qed.
Lemma enter_ok : forall w m, mode_ok m -> mode_ok (apply (at_enter w) m).
Proof. intros [] [d t o] K; unfold mode_ok in *; cbn in *; auto. Qed.
Lemma leave_ok : forall w m, mode_ok m -> mode_ok (apply (at_leave w) m).
Proof. intros [] [d t o] K; unfold mode_ok in *; cbn in *; auto. Qed.

Lemma run_mode_aux : forall rank cs, Forall (fun c => plain c -> forall m, mode_ok m -> exists t m' x, exec rank c (state_of rank m) = (t, state_of rank m', x) /\ mode_ok m' /\ does rank m c t m' x) cs ->
  Forall plain cs -> forall m, mode_ok m -> exists t m' x, run rank cs (state_of rank m) = (t, state_of rank m', x) /\ mode_ok m' /\ does_all rank m cs t m' x.
Proof.
  intros rank cs. induction cs as [|c cs IH]; intros F P m K; [exists [], m, Finished; split; [reflexivity|]; split; [exact K|constructor]|].
  inversion F as [|? ? F1 F2]; subst. inversion P as [|? ? P1 P2]; subst. destruct (F1 P1 m K) as [t1 [m1 [x [E [K1 D]]]]]. cbn [run]. rewrite E.
  destruct x; [|exists t1, m1, Raised; split; [reflexivity|]; split; [exact K1|apply all_stop; [exact D|discriminate]]|exists t1, m1, Ended; split; [reflexivity|]; split; [exact K1|apply all_stop; [exact D|discriminate]]].
  destruct (IH F2 P2 m1 K1) as [t2 [m2 [y [E2 [K2 D2]]]]]. rewrite E2. exists (t1 ++ t2), m2, y. split; [reflexivity|]. split; [exact K2|]. eapply all_cons; eassumption.
Qed.
Lemma exec_mode : forall rank c, plain c -> forall m, mode_ok m -> exists t m' x, exec rank c (state_of rank m) = (t, state_of rank m', x) /\ mode_ok m' /\ does rank m c t m' x.
Proof.
  intros rank c. induction c as [l|c| |w body IH] using command_ind'; intros P m K.
  - cbn [exec]. rewrite (log_mode rank m l K). pose proof (does_log rank m l) as D. destruct (message rank m l) as [es x]. cbn [fst snd] in D. do 3 eexists. split; [reflexivity|]. split; [exact K|exact D].
  - inversion P as [|c0 H| |]; subst. cbn [exec]. unfold helper in H.
    destruct H as [->|[->| ->]]; [exists [], (apply (Set_debug true false) m), Finished|exists [], (apply (Set_debug true true) m), Finished|exists [], (apply (Set_debug false false) m), Finished];
      (split; [destruct m; reflexivity|]); (split; [unfold mode_ok; cbn; auto|]); constructor; unfold means; auto.
  - exists [], m, Raised. split; [reflexivity|]. split; [exact K|constructor].
  - inversion P as [| | |w0 b0 PB]; subst. rewrite exec_with, enter_mode. destruct (run_mode_aux rank body IH PB _ (enter_ok w m K)) as [t [m' [x [E [K' D]]]]]. rewrite E, leave_mode.
    exists t, (apply (at_leave w) m'), x. split; [reflexivity|]. split; [apply leave_ok; exact K'|]. constructor. exact D.
Qed.
Theorem C40_exact : forall rank cs t s x, Forall plain cs -> run rank cs (imported rank) = (t, s, x) ->
  exists m', does_all rank (mkMode false false true) cs t m' x.
Proof.
  intros rank cs t s x P E. destruct (run_mode_aux rank cs) with (m := mkMode false false true) as [t' [m' [x' [E' [_ D]]]]].
  - apply Forall_forall. intros c _. apply exec_mode.
  - exact P.
  - unfold mode_ok. cbn. discriminate.
  - change (state_of rank (mkMode false false true)) with (imported rank) in E'. rewrite E in E'. injection E' as -> _ ->. exists m'. exact D.
Qed.
Print Assumptions C40_exact.

Lemma emit_critical : forall rank c, snd (emit (configure_loggers rank c) Critical) = true.
Proof.
  intros rank c. unfold configure_loggers.
  assert (X : forall a r, snd (emit (a ++ Exit :: r) Critical) = true).
  { induction a as [|h a IH]; intros r; [reflexivity|]. cbn [app emit]. specialize (IH r). destruct (reacts h Critical); [|exact IH].
    destruct h; [destruct (emit (a ++ Exit :: r) Critical); exact IH|destruct (emit (a ++ Exit :: r) Critical); exact IH|reflexivity]. }
  rewrite !app_assoc. match goal with |- context [(?a ++ [?h; Exit]) ++ ?r] => replace ((a ++ [h; Exit]) ++ r) with ((a ++ [h]) ++ Exit :: r) by (rewrite <- !app_assoc; reflexivity) end. apply X.
Qed.

Lemma emit_ends : forall rank c l, snd (emit (configure_loggers rank c) l) = ends l.
Proof.
  intros rank c l. destruct (ends l) eqn:EL; [destruct l; try discriminate EL; apply emit_critical|].
  assert (X : forall hs, (forall h, In h hs -> h = Exit -> reacts h l = false) -> snd (emit hs l) = false).
  { induction hs as [|h hs IH]; intros H; [reflexivity|]. cbn [emit]. assert (Y : snd (emit hs l) = false) by (apply IH; intros; apply H; [right; assumption|assumption]).
    destruct (reacts h l) eqn:R; [|exact Y]. destruct h; try (destruct (emit hs l); exact Y). rewrite (H Exit (or_introl eq_refl) eq_refl) in R. discriminate R. }
  apply X. intros h _ ->. destruct l; try discriminate EL; reflexivity.
Qed.

(** Without disable_logger, with any configuration whatsoever, a CRITICAL
    message ends the program, and nothing else does: the program ends exactly at
    the first one. *)
Theorem C40_critical : forall rank cs t s x, Forall loud cs -> run rank cs (imported rank) = (t, s, x) ->
  (x = Ended -> exists t0 es, t = t0 ++ [(Critical, es)]) /\ (x <> Ended -> forall es, ~ In (Critical, es) t).
Proof.
  intros rank cs t s x P E.
  set (I := fun s : lstate => enabled s = true /\ exists c, handlers s = configure_loggers rank c).
  assert (R : logged I (run rank cs (imported rank))).
  { apply (run_logged rank loud I); [| | | |exact P|].
    - intros m body Q. inversion Q; assumption.
    - intros c s0 _ [A _]. split; [exact A|]. exists c. reflexivity.
    - intros m body s0 Q [A [c HH]]. inversion Q as [| | |m0 b0 N0 _]; subst. destruct m; [congruence| |]; (split; [exact A|]); eexists; reflexivity.
    - intros m body s0 Q [A [c HH]]. inversion Q as [| | |m0 b0 N0 _]; subst. destruct m; [congruence| |]; (split; [exact A|]); eexists; reflexivity.
    - split; [reflexivity|]. eexists. reflexivity. }
  rewrite E in R. destruct R as [_ [_ [B C]]]. split.
  - intros X. destruct (B X) as [t0 [l [es [s' [-> [[EN [c HH]] L]]]]]]. exists t0, es. unfold log in L. rewrite EN, HH in L.
    pose proof (emit_ends rank c l) as EE. rewrite L in EE. destruct l; try discriminate EE. reflexivity.
  - intros X es H. destruct (C X _ _ H) as [s' [[EN [c HH]] L]]. unfold log in L. rewrite EN, HH in L. pose proof (emit_critical rank c) as EE. rewrite L in EE. discriminate EE.
Qed.
Print Assumptions C40_critical.

(** The body of disable_logger, if it does not use disable_logger itself, logs
    nothing and cannot end the program. *)
Theorem C40_disabled : forall rank body s, Forall loud body ->
  let '(t, _, x) := exec rank (With disable_logger body) s in (forall l es, In (l, es) t -> es = []) /\ x <> Ended.
Proof.
  intros rank body s P. rewrite exec_with. cbn [enter].
  assert (R : logged (fun s => enabled s = false) (run rank body (activate false s))).
  { apply (run_logged rank loud); [| | | |exact P|reflexivity].
    - intros m b Q. inversion Q; assumption.
    - intros c s0 _ A. exact A.
    - intros m b s0 Q A. inversion Q as [| | |m0 b0 N0 _]; subst. destruct m; [congruence|exact A|exact A].
    - intros m b s0 Q A. inversion Q as [| | |m0 b0 N0 _]; subst. destruct m; [congruence|exact A|exact A]. }
  destruct (run rank body (activate false s)) as [[t s1] x]. destruct R as [_ [A [B _]]]. split.
  - intros l es H. destruct (A l es H) as [s' [D ->]]. unfold log. rewrite D. reflexivity.
  - intros X. destruct (B X) as [t0 [l [es [s' [_ [D L]]]]]]. unfold log in L. rewrite D in L. discriminate L.
Qed.
Print Assumptions C40_disabled.

(** However a program ends, the logger is enabled afterwards. *)
Theorem C40_enabled_after : forall rank cs t s x, run rank cs (imported rank) = (t, s, x) -> enabled s = true.
Proof. intros rank cs t s x E. pose proof (run_enabled rank cs (imported rank) eq_refl) as H. rewrite E in H. exact H. Qed.
Print Assumptions C40_enabled_after.

(** * Other configurations *)
(** How often any message is printed under any configuration. *)
Definition one (b : bool) : nat := if b then 1 else 0.
Theorem C40_custom : forall rank c l, l <> Trace ->
  times (fst (emit (configure_loggers rank c) l)) =
    one (has_debug (stdout_filter c) && lvl_eqb l Debug) +
    one (Nat.eqb rank 0 && passes (without_debug (stdout_filter c)) l) +
    one (Nat.eqb rank 0 && passes (stderr_filter_warnings c) l) +
    one (passes (stderr_filter c) l).
Proof.
  intros rank [o w e b] l NT. unfold configure_loggers. cbn [stdout_filter stderr_filter_warnings stderr_filter standard_warnings].
  assert (SD : (severity Debug <=? severity l) = true) by (destruct l; try reflexivity; congruence).
  assert (ST : forall f g r, times (fst (emit (Stream f g :: r) l)) = one (prints f && passes g l) + times (fst (emit r l))).
  { intros f g r. cbn [emit]. unfold reacts. rewrite SD. cbn [andb]. destruct (passes g l); [|rewrite andb_false_r; reflexivity]. rewrite andb_true_r. destruct (emit r l) as [es x]. cbn [fst]. unfold times. cbn [filter]. destruct (prints f); reflexivity. }
  assert (TL : times (fst (emit (Exit :: (if b then [Callback DummyWarning Warning; Callback DummyError Error] else [])) l)) = 0) by (destruct b, l; reflexivity).
  assert (WD : passes (if has_debug o then without_debug o else o) l = passes (without_debug o) l).
  { destruct (has_debug o) eqn:HD; [reflexivity|]. destruct o as [|ls]; [reflexivity|]. cbn [without_debug passes]. cbn [has_debug] in HD. f_equal.
    symmetry. induction ls as [|y ls IH]; [reflexivity|]. cbn [existsb] in HD. apply orb_false_elim in HD. destruct HD as [H1 H2]. cbn [filter].
    replace (lvl_eqb y Debug) with false by (unfold lvl_eqb in *; rewrite Nat.eqb_sym; symmetry; exact H1). cbn [negb]. f_equal. exact (IH H2). }
  assert (DB : passes (Names [Debug]) l = lvl_eqb l Debug) by (cbn [passes existsb]; apply orb_false_r).
  destruct (has_debug o); destruct (Nat.eqb rank 0); cbn [app]; rewrite ?ST; cbn [app]; rewrite TL, ?WD, ?DB; cbn [prints andb one]; lia.
Qed.
Print Assumptions C40_custom.

(** The same said without the model's helpers.  [shown f l]: a filter, "all" or
    a list of levels, lets [l] through. *)
Definition shown (f : lfilter) (l : lvl) : Prop := f = All \/ exists ls, f = Names ls /\ In l ls.
Definition counts (n : nat) (P : Prop) : Prop := (P -> n = 1) /\ (~ P -> n = 0).
Theorem C40_streams : forall rank c l, l <> Trace -> exists a b w e,
  times (fst (emit (configure_loggers rank c) l)) = a + b + w + e /\
  counts a (l = Debug /\ exists ls, stdout_filter c = Names ls /\ In Debug ls) /\
  counts b (rank = 0 /\ (stdout_filter c = All \/ l <> Debug /\ shown (stdout_filter c) l)) /\
  counts w (rank = 0 /\ shown (stderr_filter_warnings c) l) /\
  counts e (shown (stderr_filter c) l).
Proof.
  intros rank c l NT. pose proof (C40_custom rank c l NT) as H. do 4 eexists. split; [exact H|]. clear H.
  assert (Q : forall x y, lvl_eqb x y = true <-> x = y) by (intros [] []; split; intros E; try reflexivity; discriminate E).
  assert (EX : forall x ls, existsb (lvl_eqb x) ls = true <-> In x ls).
  { intros x ls. rewrite existsb_exists. split; [intros [y [Hy E]]; apply Q in E; subst; exact Hy|intros H; exists x; split; [exact H|apply Q; reflexivity]]. }
  assert (SH : forall f, passes f l = true <-> shown f l).
  { intros [|ls]; unfold shown; cbn [passes]; [split; [left; reflexivity|reflexivity]|]. rewrite EX. split; [intros H; right; exists ls; split; [reflexivity|exact H]|intros [H|[ls' [H1 H2]]]; [discriminate H|injection H1 as ->; exact H2]]. }
  assert (CT : forall b P, (b = true <-> P) -> counts (one b) P).
  { intros b P [H1 H2]. split; intros H; [rewrite (H2 H); reflexivity|]. destruct b; [exfalso; apply H; apply H1; reflexivity|reflexivity]. }
  split; [|split; [|split]]; apply CT; rewrite ?andb_true_iff, ?Nat.eqb_eq, ?SH; try reflexivity.
  - rewrite Q. destruct (stdout_filter c) as [|ls]; cbn [has_debug]; [split; [intros [H _]; discriminate H|intros [_ [ls [H _]]]; discriminate H]|].
    rewrite EX. split; [intros [H1 H2]; split; [exact H2|exists ls; split; [reflexivity|exact H1]]|intros [H1 [ls' [H2 H3]]]; injection H2 as ->; split; assumption].
  - destruct (stdout_filter c) as [|ls]; cbn [without_debug]; [split; intros [H1 H2]; (split; [exact H1|left; reflexivity])|].
    unfold shown. split; intros [H1 H2]; (split; [exact H1|]).
    + right. destruct H2 as [H2|[ls' [H2 H3]]]; [discriminate H2|]. injection H2 as <-. apply filter_In in H3. destruct H3 as [H3 H4].
      split; [intros ->; discriminate H4|right; exists ls; split; [reflexivity|exact H3]].
    + right. destruct H2 as [H2|[H2 [H3|[ls' [H3 H4]]]]]; [discriminate H2|discriminate H3|]. injection H3 as <-. eexists. split; [reflexivity|]. apply filter_In. split; [exact H4|].
      destruct (lvl_eqb l Debug) eqn:E; [apply Q in E; contradiction|reflexivity].
Qed.
Print Assumptions C40_streams.

(** With "all" on standard output, debug messages appear on rank 0 only: the
    string "all" does not contain "DEBUG". *)
Theorem C40_all : forall rank c l, l <> Trace -> stdout_filter c = All -> stderr_filter_warnings c = Names [Warning] -> stderr_filter c = Names [Error; Critical] ->
  times (fst (emit (configure_loggers rank c) l)) =
    (if Nat.eqb rank 0 then 1 else 0) + (if Nat.eqb rank 0 then match l with Warning => 1 | _ => 0 end else 0) + match l with Error | Critical => 1 | _ => 0 end.
Proof.
  intros rank c l NT E1 E2 E3. rewrite (C40_custom rank c l NT), E1, E2, E3. destruct (Nat.eqb rank 0), l; try reflexivity; contradiction.
Qed.
Print Assumptions C40_all.

(** * What fails *)
(** A CRITICAL message does not end the program inside disable_logger. *)
Theorem C40_critical_refuted : exists rank cs s, run rank cs (imported rank) = ([(Critical, []); (Info, [Stdout])], s, Finished).
Proof. exists 0, [With disable_logger [Log Critical]; Log Info]. eexists. reflexivity. Qed.
Print Assumptions C40_critical_refuted.

(** Nested disable_logger: the inner exit enables the logger for the rest of the
    outer block. *)
Theorem C40_nested_disable_refuted : exists rank cs s, run rank [With disable_logger cs] (imported rank) = ([(Info, [Stdout])], s, Finished).
Proof. exists 0, [With disable_logger []; Log Info]. eexists. reflexivity. Qed.
Print Assumptions C40_nested_disable_refuted.

(** Nested debug: the inner exit switches debugging off; testing mode leaves it
    on. *)
Theorem C40_nested_debug_refuted : exists rank cs s, run rank [With debug cs] (imported rank) = ([(Debug, [Stdout]); (Debug, [])], s, Finished).
Proof. exists 0, [With debug [Log Debug]; Log Debug]. eexists. reflexivity. Qed.
Print Assumptions C40_nested_debug_refuted.
Theorem C40_testing_refuted : exists rank cs s, run rank [Log Debug; With testing_mode cs; Log Debug] (imported rank) = ([(Debug, []); (Debug, [Stdout])], s, Finished).
Proof. exists 0, []. eexists. reflexivity. Qed.
Print Assumptions C40_testing_refuted.

(** Overlapping filters print twice. *)
Theorem C40_twice_refuted : exists rank c s, run rank [Configure c; Log Info] (imported rank) = ([(Info, [Stdout; Stdout])], s, Finished).
Proof. exists 0, (mkConf All (Names [Warning; Info]) (Names [Error; Critical]) false). eexists. reflexivity. Qed.
Print Assumptions C40_twice_refuted.

Example C40_nonvacuous : let cs := [Log Info; With debug [Log Debug; With testing_mode [Log Error; Log Warning]; Log Debug]; Log Critical; Log Info] in
  Forall plain cs /\ Forall loud cs /\
  (exists s, run 1 cs (imported 1) = ([(Info, []); (Debug, [Stdout]); (Error, [Stderr; DummyWarning; DummyError]); (Warning, [DummyWarning]); (Debug, [Stdout]); (Critical, [Stderr])], s, Ended)) /\
  exists s, run 0 cs (imported 0) = ([(Info, [Stdout]); (Debug, [Stdout]); (Error, [Stderr; DummyWarning; DummyError]); (Warning, [Stdout; DummyWarning]); (Debug, [Stdout]); (Critical, [Stderr])], s, Ended).
Proof.
  intros cs. split; [repeat (constructor; try discriminate)|]. split; [repeat (constructor; try discriminate)|].
  split; eexists; reflexivity.
Qed.
