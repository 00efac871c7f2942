(** Lemmas on logger programs. *)
From Coq Require Import List Bool PeanoNat Lia.
From Verif Require Import Logger.
Import ListNotations.
Open Scope list_scope.
Open Scope nat_scope.

Section Ind.
Variable P : command -> Prop.
Hypothesis HL : forall l, P (Log l).
Hypothesis HC : forall c, P (Configure c).
Hypothesis HR : P Raise.
Hypothesis HW : forall m body, Forall P body -> P (With m body).
Fixpoint command_ind' (c : command) : P c :=
  match c with
  | Log l => HL l
  | Configure c => HC c
  | Raise => HR
  | With m body => HW m body ((fix go (cs : list command) : Forall P cs :=
      match cs with [] => Forall_nil P | c :: r => Forall_cons c (command_ind' c) (go r) end) body)
  end.
End Ind.

Section Rank.
Variable rank : nat.

Lemma exec_with : forall m body s, exec rank (With m body) s = let '(t, s1, x) := run rank body (enter rank m s) in (t, leave rank m s1, x).
Proof. reflexivity. Qed.

(** An invariant of the states in which messages are logged. *)
Section Inv.
Variable ok : command -> Prop.
Variable I : lstate -> Prop.
Hypothesis ok_body : forall m body, ok (With m body) -> Forall ok body.
Hypothesis I_conf : forall c s, ok (Configure c) -> I s -> I (set_conf rank c s).
Hypothesis I_enter : forall m body s, ok (With m body) -> I s -> I (enter rank m s).
Hypothesis I_leave : forall m body s, ok (With m body) -> I s -> I (leave rank m s).

Definition logged (o : outcome) : Prop :=
  let '(t, s, x) := o in I s /\ (forall l es, In (l, es) t -> exists s', I s' /\ es = fst (log s' l)) /\
  (x = Ended -> exists t0 l es s', t = t0 ++ [(l, es)] /\ I s' /\ log s' l = (es, true)) /\
  (x <> Ended -> forall l es, In (l, es) t -> exists s', I s' /\ log s' l = (es, false)).

Lemma run_logged_aux : forall cs, Forall (fun c => ok c -> forall s, I s -> logged (exec rank c s)) cs -> Forall ok cs -> forall s, I s -> logged (run rank cs s).
Proof.
  induction cs as [|c cs IH]; intros F O s S; cbn [run].
  - split; [exact S|]. split; [intros l es []|]. split; [discriminate|intros _ l es []].
  - inversion F as [|? ? F1 F2]; subst. inversion O as [|? ? O1 O2]; subst. pose proof (F1 O1 s S) as H. destruct (exec rank c s) as [[t1 s1] x]. destruct H as [S1 [A [B C]]].
    destruct x; [|split; [exact S1|auto]|split; [exact S1|auto]].
    pose proof (IH F2 O2 s1 S1) as H2. destruct (run rank cs s1) as [[t2 s2] y]. destruct H2 as [S2 [A2 [B2 C2]]]. split; [exact S2|]. split.
    + intros l es H. apply in_app_or in H. destruct H; auto.
    + split.
      * intros Y. destruct (B2 Y) as [t0 [l [es [s' [-> [K L]]]]]]. exists (t1 ++ t0), l, es, s'. rewrite app_assoc. auto.
      * intros Y l es H. apply in_app_or in H. destruct H; [apply C; [discriminate|assumption]|auto].
Qed.
Lemma exec_logged : forall c, ok c -> forall s, I s -> logged (exec rank c s).
Proof.
  intros c. induction c as [l|c| |m body IH] using command_ind'; intros O s S.
  - cbn [exec]. destruct (log s l) as [es x] eqn:E. split; [exact S|]. split.
    + intros l' es' [H|[]]. injection H as <- <-. exists s. rewrite E. auto.
    + split.
      * intros X. exists [], l, es, s. split; [reflexivity|]. split; [exact S|]. destruct x; [exact E|discriminate X].
      * intros X l' es' [H|[]]. injection H as <- <-. exists s. split; [exact S|]. destruct x; [congruence|exact E].
  - cbn [exec]. split; [apply I_conf; assumption|]. split; [intros l es []|]. split; [discriminate|intros _ l es []].
  - cbn [exec]. split; [exact S|]. split; [intros l es []|]. split; [discriminate|intros _ l es []].
  - rewrite exec_with. pose proof (run_logged_aux body IH (ok_body m body O) (enter rank m s) (I_enter m body s O S)) as H.
    destruct (run rank body (enter rank m s)) as [[t s1] x]. destruct H as [S1 H]. split; [apply (I_leave m body); assumption|exact H].
Qed.
Lemma run_logged : forall cs, Forall ok cs -> forall s, I s -> logged (run rank cs s).
Proof. intros cs O s S. apply run_logged_aux; [|exact O|exact S]. apply Forall_forall. intros c _. apply exec_logged. Qed.
End Inv.

(** The logger is enabled again after every with statement. *)
Lemma run_enabled_aux : forall cs, Forall (fun c => forall s, enabled s = true -> enabled (snd (fst (exec rank c s))) = true) cs ->
  forall s, enabled s = true -> enabled (snd (fst (run rank cs s))) = true.
Proof.
  induction cs as [|c cs IH]; intros F s S; [exact S|]. inversion F as [|? ? F1 F2]; subst. cbn [run]. pose proof (F1 s S) as H. destruct (exec rank c s) as [[t1 s1] x]. cbn [fst snd] in H.
  destruct x; try exact H. pose proof (IH F2 s1 H) as H2. destruct (run rank cs s1) as [[t2 s2] y]. exact H2.
Qed.
Lemma exec_enabled : forall c s, enabled s = true -> enabled (snd (fst (exec rank c s))) = true.
Proof.
  intros c. induction c as [l|c| |m body IH] using command_ind'; intros s S.
  - cbn [exec]. destruct (log s l). exact S.
  - exact S.
  - exact S.
  - rewrite exec_with. destruct m; cbn [enter leave].
    + destruct (run rank body (activate false s)) as [[t s1] x]. reflexivity.
    + pose proof (run_enabled_aux body IH (set_conf rank TESTING_MODE s) S) as H. destruct (run rank body (set_conf rank TESTING_MODE s)) as [[t s1] x]. exact H.
    + pose proof (run_enabled_aux body IH (set_conf rank DEBUG s) S) as H. destruct (run rank body (set_conf rank DEBUG s)) as [[t s1] x]. exact H.
Qed.
Lemma run_enabled : forall cs s, enabled s = true -> enabled (snd (fst (run rank cs s))) = true.
Proof. intros cs. apply run_enabled_aux. apply Forall_forall. intros c _. apply exec_enabled. Qed.
End Rank.
