(** Lemmas on Brigade.v: the invariant. *)
From Coq Require Import String ZArith List Bool Lia.
From Verif Require Import Base Cache Cache_proofs Brigade.
Import ListNotations.
Open Scope list_scope.
Open Scope nat_scope.

Section Inv.
Variable p : nat.
Variable jobs : list string.
Variable others : string -> Prop.
Variable d0 : dir unit.
Hypothesis P : 0 < p.
Hypothesis ND : NoDup jobs.
Hypothesis OUT : forall k, In k jobs -> ~ others k.
Hypothesis D0 : forall k c, In k jobs -> fget k d0 = Some c -> c = Complete tt.

Definition fresh (k : string) : bool := match fget k d0 with Some _ => false | None => true end.
(** Number of points to be computed among the first [i]. *)
Definition cnt (i : nat) : nat := List.length (filter fresh (firstn i jobs)).
Definition passed (x : nat * phase) : nat := cnt (fst x) + match snd x with Create | Write => 1 | _ => 0 end.

Lemma firstn_snoc : forall A (l : list A) i x, nth_error l i = Some x -> firstn (S i) l = firstn i l ++ [x].
Proof.
  induction l as [|a l IH]; intros i x H; [destruct i; discriminate|]. destruct i; cbn [nth_error] in H.
  - injection H as ->. reflexivity.
  - cbn [firstn app]. f_equal. apply IH. exact H.
Qed.
Lemma cnt_S : forall i k, nth_error jobs i = Some k -> cnt (S i) = cnt i + (if fresh k then 1 else 0).
Proof.
  intros i k H. unfold cnt. rewrite (firstn_snoc _ _ _ _ H), filter_app, app_length. cbn [filter]. destruct (fresh k); reflexivity.
Qed.
Lemma cnt_mono : forall i j, i <= j -> cnt i <= cnt j.
Proof.
  intros i j H. induction H as [|j H IH]; [lia|]. destruct (nth_error jobs j) as [k|] eqn:E.
  - rewrite (cnt_S _ _ E). lia.
  - apply nth_error_None in E. replace (cnt (S j)) with (cnt j); [exact IH|]. unfold cnt. rewrite !(firstn_all2 jobs) by lia. reflexivity.
Qed.
Lemma cnt_strict : forall i j k, i < j -> nth_error jobs i = Some k -> fresh k = true -> cnt i < cnt j.
Proof. intros i j k H E F. assert (M : S i <= j) by lia. apply cnt_mono in M. rewrite (cnt_S _ _ E), F in M. lia. Qed.

Record inv (s : bstate) (C : nat) : Prop := {
  i_passed : forall r, r < p -> passed (ranks s r) = C;
  i_le : forall r, r < p -> fst (ranks s r) <= List.length jobs;
  i_phase : forall r, r < p -> match snd (ranks s r) with
     | Check => True
     | Load => exists k, nth_error jobs (fst (ranks s r)) = Some k /\ fresh k = false
     | Coll => exists k, nth_error jobs (fst (ranks s r)) = Some k /\ fresh k = true
     | Create | Write => r = 0 /\ exists k, nth_error jobs (fst (ranks s r)) = Some k /\ fresh k = true
     | Failed => False end;
  i_old : forall k, In k jobs -> fresh k = false -> fget k (files s) = Some (Complete tt);
  i_new : forall j k, nth_error jobs j = Some k -> fresh k = true -> C <= cnt j -> fget k (files s) = None;
  i_done : forall j k, nth_error jobs j = Some k -> fresh k = true -> j < fst (ranks s 0) -> fget k (files s) = Some (Complete tt) }.

Lemma upd_same : forall f r x, upd f r x r = x.
Proof. intros. unfold upd. rewrite Nat.eqb_refl. reflexivity. Qed.
Lemma upd_other : forall f r x r', r' <> r -> upd f r x r' = f r'.
Proof. intros. unfold upd. destruct (Nat.eqb_spec r' r); [contradiction|reflexivity]. Qed.

Lemma start_inv : inv (start d0) 0.
Proof.
  constructor; cbn [start ranks files fst snd].
  - intros r _. reflexivity.
  - intros r _. lia.
  - intros r _. exact I.
  - intros k K F. unfold fresh in F. destruct (fget k d0) as [c|] eqn:G; [|discriminate]. rewrite (D0 k c K G). reflexivity.
  - intros j k _ F _. unfold fresh in F. destruct (fget k d0); [discriminate|reflexivity].
  - intros j k _ _ H. lia.
Qed.

Lemma pos_unique : forall i j k, nth_error jobs i = Some k -> nth_error jobs j = Some k -> i = j.
Proof. intros i j k A B. rewrite NoDup_nth_error in ND. apply ND; [apply nth_error_Some; congruence|congruence]. Qed.

(** A rank at [Check] finds a file exactly if there was one at the start. *)
Lemma check_fresh : forall s C r j k, inv s C -> r < p -> ranks s r = (j, Check) -> nth_error jobs j = Some k ->
  fget k (files s) = if fresh k then None else Some (Complete tt).
Proof.
  intros s C r j k V R E K. destruct (fresh k) eqn:F.
  - apply (i_new s C V j k K F). pose proof (i_passed s C V r R) as H. rewrite E in H. unfold passed in H. cbn [fst snd] in H. lia.
  - apply (i_old s C V k); [eapply nth_error_In; exact K|exact F].
Qed.

Lemma move_inv : forall s C r x, inv s C -> r < p -> passed x = C -> fst x <= List.length jobs ->
  (match snd x with
     | Check => True
     | Load => exists k, nth_error jobs (fst x) = Some k /\ fresh k = false
     | Coll => exists k, nth_error jobs (fst x) = Some k /\ fresh k = true
     | Create | Write => r = 0 /\ exists k, nth_error jobs (fst x) = Some k /\ fresh k = true
     | Failed => False end) ->
  (r = 0 -> forall j k, nth_error jobs j = Some k -> fresh k = true -> j < fst x -> fget k (files s) = Some (Complete tt)) ->
  inv (mkB (upd (ranks s) r x) (files s)) C.
Proof.
  intros s C r x V R HP HL HX HD. constructor; cbn [ranks files].
  - intros r' R'. destruct (Nat.eq_dec r' r) as [->|N]; [rewrite upd_same; exact HP|rewrite upd_other by exact N; apply (i_passed s C V r' R')].
  - intros r' R'. destruct (Nat.eq_dec r' r) as [->|N]; [rewrite upd_same; exact HL|rewrite upd_other by exact N; apply (i_le s C V r' R')].
  - intros r' R'. destruct (Nat.eq_dec r' r) as [->|N]; [rewrite upd_same; exact HX|rewrite upd_other by exact N; apply (i_phase s C V r' R')].
  - apply (i_old s C V).
  - apply (i_new s C V).
  - intros j k K F L. destruct (Nat.eq_dec 0 r) as [<-|N]; [rewrite upd_same in L; apply (HD eq_refl j k K F L)|rewrite upd_other in L by exact N; apply (i_done s C V j k K F L)].
Qed.

Lemma step_inv : forall s l s' C, inv s C -> step p jobs others s l s' -> exists C', inv s' C'.
Proof.
  intros s l s' C V H. destruct H as [s r j k c R E K G|s r j k R E K G|s r j k R E K G|s r j k R E K G|s R E|s j k R E K|s j k R E K|s k c O].
  - pose proof (check_fresh s C r j k V R E K) as CF. exists C. pose proof (i_passed s C V r R) as HP. pose proof (i_le s C V r R) as HL. rewrite E in HP, HL.
    apply move_inv; auto.
    + cbn [fst snd]. exists k. split; [exact K|]. destruct (fresh k); [congruence|reflexivity].
    + intros -> j' k' K' F' L. apply (i_done s C V j' k' K' F'). rewrite E. exact L.
  - pose proof (check_fresh s C r j k V R E K) as CF. exists C. pose proof (i_passed s C V r R) as HP. pose proof (i_le s C V r R) as HL. rewrite E in HP, HL.
    apply move_inv; auto.
    + cbn [fst snd]. exists k. split; [exact K|]. destruct (fresh k); [reflexivity|congruence].
    + intros -> j' k' K' F' L. apply (i_done s C V j' k' K' F'). rewrite E. exact L.
  - exists C. pose proof (i_passed s C V r R) as HP. pose proof (i_phase s C V r R) as HX. rewrite E in HP, HX. cbn [fst snd] in HX.
    destruct HX as [k' [K' F]]. assert (k' = k) by congruence. subst k'.
    assert (j < List.length jobs) by (apply nth_error_Some; congruence).
    apply move_inv; auto.
    + unfold passed in *. cbn [fst snd] in *. rewrite (cnt_S _ _ K), F. lia.
    + exact I.
    + intros -> j' k' K2 F2 L. cbn [fst] in L. assert (j' <> j) by (intros ->; congruence). apply (i_done s C V j' k' K2 F2). rewrite E. cbn [fst]. lia.
  - exfalso. pose proof (i_phase s C V r R) as HX. rewrite E in HX. cbn [fst snd] in HX. destruct HX as [k' [K' F]]. assert (k' = k) by congruence. subst k'.
    rewrite (i_old s C V k) in G; [discriminate|eapply nth_error_In; exact K|exact F].
  - exists (S C).
    assert (Q : forall r, r < p -> exists k, nth_error jobs (fst (ranks s r)) = Some k /\ fresh k = true /\ cnt (fst (ranks s r)) = C).
    { intros r R'. pose proof (i_phase s C V r R') as HX. rewrite (E r R') in HX. destruct HX as [k [K F]]. exists k. split; [exact K|]. split; [exact F|].
      pose proof (i_passed s C V r R') as HP. unfold passed in HP. rewrite (E r R') in HP. lia. }
    constructor; cbn [ranks files].
    + intros r R'. destruct (Q r R') as [k [K [F CN]]]. unfold passed. destruct (Nat.eqb r 0); cbn [fst snd]; [lia|]. rewrite (cnt_S _ _ K), F. lia.
    + intros r R'. destruct (Q r R') as [k [K [F CN]]]. assert (fst (ranks s r) < List.length jobs) by (apply nth_error_Some; congruence). destruct (Nat.eqb r 0); cbn [fst]; lia.
    + intros r R'. destruct (Q r R') as [k [K [F CN]]]. destruct (Nat.eqb_spec r 0) as [->|]; cbn [fst snd]; [|exact I]. split; [reflexivity|]. exists k. auto.
    + apply (i_old s C V).
    + intros j k K F L. apply (i_new s C V j k K F). lia.
    + intros j k K F L. cbn [Nat.eqb fst] in L. apply (i_done s C V j k K F L).
  - exists C. pose proof (i_passed s C V 0 R) as HP. pose proof (i_phase s C V 0 R) as HX. rewrite E in HP, HX. unfold passed in HP. cbn [fst snd] in HP, HX.
    destruct HX as [_ [k' [K' F]]]. assert (k' = k) by congruence. subst k'.
    assert (LJ : j < List.length jobs) by (apply nth_error_Some; congruence).
    assert (OT : forall i k', nth_error jobs i = Some k' -> i <> j -> k' <> k) by (intros i k' I N ->; apply N; apply (pos_unique i j k I K)).
    constructor; cbn [ranks files].
    + intros r R'. destruct (Nat.eq_dec r 0) as [->|N]; [rewrite upd_same; exact HP|rewrite upd_other by exact N; apply (i_passed s C V r R')].
    + intros r R'. destruct (Nat.eq_dec r 0) as [->|N]; [rewrite upd_same; cbn [fst]; lia|rewrite upd_other by exact N; apply (i_le s C V r R')].
    + intros r R'. destruct (Nat.eq_dec r 0) as [->|N]; [rewrite upd_same; cbn [fst snd]; split; eauto|rewrite upd_other by exact N; apply (i_phase s C V r R')].
    + intros k' I F'. rewrite fget_other by (intros ->; congruence). apply (i_old s C V k' I F').
    + intros i k' K2 F2 L. rewrite fget_other; [apply (i_new s C V i k' K2 F2 L)|]. apply not_eq_sym. apply (OT i k' K2). intros ->. lia.
    + rewrite upd_same. cbn [fst]. intros i k' K2 F2 L. rewrite fget_other; [apply (i_done s C V i k' K2 F2); rewrite E; exact L|]. apply not_eq_sym. apply (OT i k' K2). lia.
  - exists C. pose proof (i_passed s C V 0 R) as HP. pose proof (i_phase s C V 0 R) as HX. rewrite E in HP, HX. unfold passed in HP. cbn [fst snd] in HP, HX.
    destruct HX as [_ [k' [K' F]]]. assert (k' = k) by congruence. subst k'.
    assert (LJ : j < List.length jobs) by (apply nth_error_Some; congruence).
    assert (OT : forall i k', nth_error jobs i = Some k' -> i <> j -> k' <> k) by (intros i k' I N ->; apply N; apply (pos_unique i j k I K)).
    constructor; cbn [ranks files].
    + intros r R'. destruct (Nat.eq_dec r 0) as [->|N]; [rewrite upd_same; unfold passed; cbn [fst snd]; rewrite (cnt_S _ _ K), F; lia|rewrite upd_other by exact N; apply (i_passed s C V r R')].
    + intros r R'. destruct (Nat.eq_dec r 0) as [->|N]; [rewrite upd_same; cbn [fst]; lia|rewrite upd_other by exact N; apply (i_le s C V r R')].
    + intros r R'. destruct (Nat.eq_dec r 0) as [->|N]; [rewrite upd_same; exact I|rewrite upd_other by exact N; apply (i_phase s C V r R')].
    + intros k' I F'. rewrite fget_other by (intros ->; congruence). apply (i_old s C V k' I F').
    + intros i k' K2 F2 L. rewrite fget_other; [apply (i_new s C V i k' K2 F2 L)|]. apply not_eq_sym. apply (OT i k' K2). intros ->. lia.
    + rewrite upd_same. cbn [fst]. intros i k' K2 F2 L. destruct (Nat.eq_dec i j) as [->|N].
      * assert (k' = k) by congruence. subst k'. apply fget_same.
      * rewrite fget_other; [apply (i_done s C V i k' K2 F2); rewrite E; cbn [fst]; lia|]. apply not_eq_sym. apply (OT i k' K2). exact N.
  - exists C.
    assert (KO : forall k', In k' jobs -> fget k' (fput k c (files s)) = fget k' (files s)).
    { intros k' I. apply fget_other. intros ->. exact (OUT k' I O). }
    constructor; cbn [ranks files].
    + apply (i_passed s C V).
    + apply (i_le s C V).
    + apply (i_phase s C V).
    + intros k' I F. rewrite KO by exact I. apply (i_old s C V k' I F).
    + intros i k' K F L. rewrite KO by (eapply nth_error_In; exact K). apply (i_new s C V i k' K F L).
    + intros i k' K F L. rewrite KO by (eapply nth_error_In; exact K). apply (i_done s C V i k' K F L).
Qed.

Lemma run_inv : forall s ls s' C, inv s C -> run p jobs others s ls s' -> exists C', inv s' C'.
Proof.
  intros s ls s' C V H. revert C V. induction H as [s|s l s1 ls s2 H1 H2 IH]; intros C V; [eauto|].
  destruct (step_inv _ _ _ _ V H1) as [C1 V1]. exact (IH C1 V1).
Qed.

(** Progress. *)
Lemma progress : forall s C, inv s C -> finished p jobs s \/ exists l s', l <> Outside /\ step p jobs others s l s'.
Proof.
  intros s C V.
  assert (D : forall n, n <= p -> (exists r, r < n /\ exists l s', l <> Outside /\ step p jobs others s l s') \/
     forall r, r < n -> ranks s r = (List.length jobs, Check) \/ snd (ranks s r) = Coll).
  { induction n as [|n IH]; intros L; [right; intros r R; lia|].
    destruct (IH ltac:(lia)) as [[r [R X]]|A]; [left; exists r; split; [lia|exact X]|].
    destruct (ranks s n) as [j ph] eqn:E. pose proof (i_phase s C V n ltac:(lia)) as HX. rewrite E in HX. cbn [fst snd] in HX.
    destruct ph.
    - destruct (nth_error jobs j) as [k|] eqn:K.
      + left. exists n. split; [lia|]. destruct (fget k (files s)) as [c|] eqn:G.
        * exists (Found n j). eexists. split; [discriminate|]. eapply step_found; eauto; lia.
        * exists (Missing n j). eexists. split; [discriminate|]. eapply step_missing; eauto; lia.
      + apply nth_error_None in K. pose proof (i_le s C V n ltac:(lia)) as HL. rewrite E in HL. cbn [fst] in HL.
        right. intros r R. destruct (Nat.eq_dec r n) as [->|N]; [left; rewrite E; f_equal; lia|apply A; lia].
    - destruct HX as [k [K F]]. left. exists n. split; [lia|]. exists Internal. eexists. split; [discriminate|].
      apply (step_load p jobs others s n j k); [lia|exact E|exact K|]. apply (i_old s C V k); [eapply nth_error_In; exact K|exact F].
    - right. intros r R. destruct (Nat.eq_dec r n) as [->|N]; [right; rewrite E; reflexivity|apply A; lia].
    - destruct HX as [-> [k [K F]]]. left. exists 0. split; [lia|]. exists Internal. eexists. split; [discriminate|]. eapply step_create; eauto.
    - destruct HX as [-> [k [K F]]]. left. exists 0. split; [lia|]. exists Internal. eexists. split; [discriminate|]. eapply step_write; eauto.
    - destruct HX. }
  destruct (D p (le_n p)) as [[r [_ X]]|A]; [right; exact X|].
  assert (B : forall n, n <= p -> (forall r, r < n -> snd (ranks s r) = Coll) \/ exists r, r < p /\ ranks s r = (List.length jobs, Check)).
  { induction n as [|n IH]; intros L; [left; intros r R; lia|].
    destruct (IH ltac:(lia)) as [IH'|X]; [|right; exact X].
    destruct (A n ltac:(lia)) as [X|X]; [right; exists n; split; [lia|exact X]|].
    left. intros r R. destruct (Nat.eq_dec r n) as [->|N]; [exact X|apply IH'; lia]. }
  specialize (B p (le_n p)).
  destruct B as [B|[r0 [R0 E0]]].
  - right. exists Internal. eexists. split; [discriminate|]. apply step_collective; assumption.
  - left. intros r R. destruct (A r R) as [X|X]; [exact X|]. exfalso.
    pose proof (i_passed s C V r0 R0) as H0. rewrite E0 in H0. unfold passed in H0. cbn [fst snd] in H0.
    pose proof (i_passed s C V r R) as H1. unfold passed in H1. rewrite X in H1.
    pose proof (i_phase s C V r R) as HX. rewrite X in HX. destruct HX as [k [K F]].
    assert (L : fst (ranks s r) < List.length jobs) by (apply nth_error_Some; congruence).
    pose proof (cnt_strict _ _ _ L K F). lia.
Qed.

(** Matching of the collective calls. *)
Lemma same_job : forall s C r r', inv s C -> r < p -> r' < p -> snd (ranks s r) = Coll -> snd (ranks s r') = Coll -> fst (ranks s r) = fst (ranks s r').
Proof.
  intros s C r r' V R R' E E'.
  pose proof (i_passed s C V r R) as H. unfold passed in H. rewrite E in H.
  pose proof (i_passed s C V r' R') as H'. unfold passed in H'. rewrite E' in H'.
  pose proof (i_phase s C V r R) as HX. rewrite E in HX. destruct HX as [k [K F]].
  pose proof (i_phase s C V r' R') as HX'. rewrite E' in HX'. destruct HX' as [k' [K' F']].
  destruct (Nat.lt_trichotomy (fst (ranks s r)) (fst (ranks s r'))) as [L|[L|L]]; [|exact L|].
  - pose proof (cnt_strict _ _ _ L K F). lia.
  - pose proof (cnt_strict _ _ _ L K' F'). lia.
Qed.

Lemma branch : forall s l s' C, inv s C -> step p jobs others s l s' ->
  (forall r j, l = Found r j -> exists k, nth_error jobs j = Some k /\ fresh k = false) /\
  (forall r j, l = Missing r j -> exists k, nth_error jobs j = Some k /\ fresh k = true).
Proof.
  intros s l s' C V H. destruct H as [s r j k c R E K G|s r j k R E K G|s r j k R E K G|s r j k R E K G|s R E|s j k R E K|s j k R E K|s k c O];
    split; intros r1 j1 EL; try discriminate; injection EL as <- <-; exists k; (split; [exact K|]);
    pose proof (check_fresh s C r j k V R E K) as CF; destruct (fresh k); congruence.
Qed.

Lemma branches : forall s ls s' C, inv s C -> run p jobs others s ls s' ->
  (forall r j, In (Found r j) ls -> exists k, nth_error jobs j = Some k /\ fresh k = false) /\
  (forall r j, In (Missing r j) ls -> exists k, nth_error jobs j = Some k /\ fresh k = true).
Proof.
  intros s ls s' C V H. revert C V. induction H as [s|s l s1 ls s2 H1 H2 IH]; intros C V; [split; intros r j []|].
  destruct (step_inv _ _ _ _ V H1) as [C1 V1]. destruct (IH C1 V1) as [A B]. destruct (branch _ _ _ _ V H1) as [A1 B1].
  split; intros r j [X|X]; eauto.
Qed.

Lemma final_files : forall s C k, inv s C -> finished p jobs s -> In k jobs -> fget k (files s) = Some (Complete tt).
Proof.
  intros s C k V F I. destruct (fresh k) eqn:FR; [|apply (i_old s C V k I FR)].
  apply In_nth_error in I. destruct I as [j K]. apply (i_done s C V j k K FR). rewrite (F 0 P). cbn [fst]. apply nth_error_Some. congruence.
Qed.
End Inv.

(** Termination: every step of the brigade lowers this number. *)
Section Term.
Variable p : nat.
Variable jobs : list string.
Variable others : string -> Prop.
Definition weight (x : nat * phase) : nat :=
  match snd x with
  | Check => 5 * (List.length jobs - fst x)
  | Load | Coll => 5 * (List.length jobs - fst x) - 1
  | Create => 5 * (List.length jobs - fst x) - 2
  | Write => 5 * (List.length jobs - fst x) - 3
  | Failed => 5 * (List.length jobs - fst x) - 4
  end.
Definition total (n : nat) (f : nat -> nat * phase) : nat := list_sum (map (fun r => weight (f r)) (seq 0 n)).

Lemma list_sum_le : forall f g (l : list nat), (forall x, In x l -> f x <= g x) -> list_sum (map f l) <= list_sum (map g l).
Proof. induction l as [|x l IH]; intros H; cbn [map list_sum fold_right]; [lia|]. pose proof (H x (or_introl eq_refl)). unfold list_sum in *. pose proof (IH (fun y Y => H y (or_intror Y))). lia. Qed.
Lemma list_sum_lt : forall f g (l : list nat) a, (forall x, In x l -> f x <= g x) -> In a l -> f a < g a -> list_sum (map f l) < list_sum (map g l).
Proof.
  induction l as [|x l IH]; intros a H I L; [destruct I|]. cbn [map list_sum fold_right].
  pose proof (H x (or_introl eq_refl)). pose proof (list_sum_le f g l (fun y Y => H y (or_intror Y))) as LE. unfold list_sum in *.
  destruct I as [->|I]; [lia|]. pose proof (IH a (fun y Y => H y (or_intror Y)) I L). lia.
Qed.
Lemma total_lt : forall f g r, (forall x, x < p -> weight (f x) <= weight (g x)) -> r < p -> weight (f r) < weight (g r) -> total p f < total p g.
Proof.
  intros f g r H R L. unfold total. apply (list_sum_lt _ _ _ r); [|apply in_seq; lia|exact L]. intros x X. apply H. apply in_seq in X. lia.
Qed.
Lemma total_upd : forall f r x, r < p -> weight x < weight (f r) -> total p (upd f r x) < total p f.
Proof.
  intros f r x R L. apply (total_lt _ _ r); [|exact R|unfold upd; rewrite Nat.eqb_refl; exact L].
  intros y _. unfold upd. destruct (Nat.eqb_spec y r) as [->|]; lia.
Qed.

(** Ranks in the middle of a point have a point. *)
Definition within (s : bstate) : Prop := forall r, r < p -> snd (ranks s r) <> Check -> fst (ranks s r) < List.length jobs.

Lemma step_within : forall s l s', within s -> step p jobs others s l s' -> within s'.
Proof.
  intros s l s' W H. destruct H as [s r j k c R E K G|s r j k R E K G|s r j k R E K G|s r j k R E K G|s R E|s j k R E K|s j k R E K|s k c O];
    try (assert (LJ : j < List.length jobs) by (apply nth_error_Some; congruence));
    intros r' R' N; cbn [ranks] in *;
    try (unfold upd in *; match type of N with context [Nat.eqb r' ?x] => destruct (Nat.eqb_spec r' x) as [->|] end;
      cbn [fst snd] in *; try exact LJ; try congruence; apply W; auto; fail).
  - destruct (Nat.eqb_spec r' 0) as [->|]; cbn [fst snd] in *; [|congruence]. apply W; [exact R'|]. rewrite (E 0 R). discriminate.
  - apply W; assumption.
Qed.

Lemma step_lowers : forall s l s', within s -> step p jobs others s l s' -> (l <> Outside /\ total p (ranks s') < total p (ranks s)) \/ (l = Outside /\ ranks s' = ranks s).
Proof.
  intros s l s' W H. destruct H as [s r j k c R E K G|s r j k R E K G|s r j k R E K G|s r j k R E K G|s R E|s j k R E K|s j k R E K|s k c O];
    try (assert (LJ : j < List.length jobs) by (apply nth_error_Some; congruence));
    try (left; split; [discriminate|]; cbn [ranks]; apply total_upd; [assumption|]; rewrite E; cbn [weight fst snd]; unfold weight; cbn [fst snd]; lia).
  - left. split; [discriminate|]. cbn [ranks]. apply (total_lt _ _ 0); [|exact R|].
    + intros x X. pose proof (W x X) as WX. rewrite (E x X) in WX. specialize (WX ltac:(discriminate)). unfold weight. rewrite (E x X).
      destruct (Nat.eqb x 0); cbn [fst snd]; lia.
    + pose proof (W 0 R) as WX. rewrite (E 0 R) in WX. specialize (WX ltac:(discriminate)). unfold weight. rewrite (E 0 R). cbn [Nat.eqb fst snd]. lia.
  - right. split; reflexivity.
Qed.

Definition own (l : label) : bool := match l with Outside => false | _ => true end.

Lemma run_bound : forall s ls s', within s -> run p jobs others s ls s' -> List.length (filter own ls) + total p (ranks s') <= total p (ranks s).
Proof.
  intros s ls s' W H. revert W. induction H as [s|s l s1 ls s2 H1 H2 IH]; intros W; [cbn; lia|].
  pose proof (IH (step_within _ _ _ W H1)). destruct (step_lowers _ _ _ W H1) as [[N L]|[-> E]].
  - cbn [filter]. assert (own l = true) by (destruct l; [reflexivity..|congruence]). rewrite H0. cbn [List.length]. lia.
  - cbn [filter own]. rewrite E in H. exact H.
Qed.

Lemma start_within : forall d, within (start d).
Proof. intros d r R N. cbn in N. congruence. Qed.
Lemma start_total : forall d, total p (ranks (start d)) = p * (5 * List.length jobs).
Proof.
  intros d. unfold total, start. cbn [ranks]. unfold weight. cbn [fst snd]. rewrite Nat.sub_0_r.
  assert (A : forall a, list_sum (map (fun _ : nat => 5 * List.length jobs) (seq a p)) = p * (5 * List.length jobs)).
  { induction p as [|q IH]; intros a; [reflexivity|]. cbn [seq map]. change (list_sum (?x :: ?l)) with (x + list_sum l). rewrite IH. lia. }
  apply A.
Qed.
End Term.
