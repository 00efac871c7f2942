(** Proofs about several processes on one directory (Conc.v). *)
From Coq Require Import String ZArith List Arith Bool Lia.
From Verif Require Import Base Cache Cache_proofs Conc Spec_conc.
Import ListNotations.
Open Scope nat_scope.
Open Scope list_scope.

Lemma nth_error_setn : forall A (l : list A) i j v, nth_error (setn l i v) j = if andb (i =? j) (i <? length l) then Some v else nth_error l j.
Proof.
  induction l as [|x l IH]; intros [|i] [|j] v; cbn [setn nth_error length]; try reflexivity.
  - change (S i <? 0) with false. rewrite andb_false_r. reflexivity.
  - rewrite IH. reflexivity.
Qed.

Lemma length_setn' : forall A (l : list A) i v, length (setn l i v) = length l.
Proof. induction l as [|x l IH]; intros [|i] v; cbn; auto. Qed.

Section General.
Context {V A : Type}.
Implicit Types (p q : prog V A) (d : dir V) (ps : list (prog V A)).

(** The directory after a turn. *)
Definition after p ps d1 d2 : Prop :=
  d2 = d1 \/ exists f v k j v' k', p = Close f v k /\ nth_error ps j = Some (Close f v' k') /\ d2 = fput f Torn d1.

Lemma turn_some : forall c ps d p, nth_error ps (fst c) = Some p ->
  exists d', turn c (ps, d) = (setn ps (fst c) (fst (step p d)), d') /\ after p (setn ps (fst c) (fst (step p d))) (snd (step p d)) d'.
Proof.
  intros [i b] ps d p H. unfold turn. cbn [fst snd] in *. rewrite H. destruct (step p d) as [p' d1] eqn:E. cbn [fst snd].
  eexists. split; [reflexivity|]. destruct p; try (left; reflexivity). destruct (b && existsb (writing f) (setn ps i p'))%bool eqn:B; [|left; reflexivity].
  apply andb_prop in B. destruct B as [_ B]. apply existsb_exists in B. destruct B as (q & Q & W).
  apply In_nth_error in Q. destruct Q as [j Q]. destruct q; try discriminate W. cbn [writing] in W. apply String.eqb_eq in W. subst.
  right. exists f, v, p, j. eexists _, _. split; [reflexivity|]. split; [exact Q|reflexivity].
Qed.

Lemma turn_none : forall c ps d, nth_error ps (fst c) = None -> turn c (ps, d) = (ps, d).
Proof. intros c ps d H. unfold turn. cbn [fst snd]. rewrite H. reflexivity. Qed.

(** Induction over schedules. *)
Lemma run_invariant : forall (I : list (prog V A) * dir V -> Prop),
  (forall i ps d p d', I (ps, d) -> nth_error ps i = Some p -> after p (setn ps i (fst (step p d))) (snd (step p d)) d' ->
     I (setn ps i (fst (step p d)), d')) ->
  forall l s, I s -> I (run l s).
Proof.
  intros I H. induction l as [|c l IH]; intros s Hs; [exact Hs|].
  cbn [run fold_left]. apply IH. destruct s as [ps d].
  destruct (nth_error ps (fst c)) as [p|] eqn:E.
  - destruct (turn_some _ _ d _ E) as (d' & -> & A'). eapply H; eassumption.
  - rewrite (turn_none _ _ _ E). exact Hs.
Qed.

Lemma run_app : forall l1 l2 (s : list (prog V A) * dir V), run (l1 ++ l2) s = run l2 (run l1 s).
Proof. intros. unfold run. apply fold_left_app. Qed.

Lemma run_length : forall l (s : list (prog V A) * dir V), length (fst (run l s)) = length (fst s).
Proof.
  intros l s. apply (run_invariant (fun s' => length (fst s') = length (fst s))); [|reflexivity].
  intros i ps d p d' H E _. cbn [fst] in *. rewrite length_setn'. exact H.
Qed.

(** The process after a turn. *)
Lemma nth_turn : forall ps i p q j, nth_error ps i = Some p ->
  nth_error (setn ps i q) j = if i =? j then Some q else nth_error ps j.
Proof.
  intros ps i p q j E. rewrite nth_error_setn.
  assert (L : (i <? length ps) = true) by (apply Nat.ltb_lt, nth_error_Some; congruence).
  rewrite L, andb_true_r. reflexivity.
Qed.

(** ** Termination *)
Inductive within : nat -> prog V A -> Prop :=
| in_ret n a : within n (Ret a)
| in_raise n x : within n (Raise x)
| in_exists n f k : (forall b, within n (k b)) -> within (S n) (Exists f k)
| in_load n f x k : (forall v, within n (k v)) -> within (S n) (Load f x k)
| in_trunc n f k : within n k -> within (S n) (Truncate f k)
| in_close n f v k : within n k -> within (S n) (Close f v k).

Lemma within_mono : forall n p, within n p -> forall m, n <= m -> within m p.
Proof.
  induction 1; intros m L; try (destruct m; [lia|]); constructor; intros; eauto; try (apply H0; lia); try (apply IHwithin; lia).
Qed.

Lemma within_step : forall n p d, within n p -> within (Nat.pred n) (fst (step p d)).
Proof.
  intros n p d H. inversion H; subst; cbn [step fst Nat.pred]; try constructor; auto.
  destruct (fget f d) as [[v|]|]; try constructor; auto.
Qed.

Lemma within_over : forall p, within 0 p -> over p.
Proof. intros p H. inversion H; exact I. Qed.

Lemma within_run : forall l ps d i p n, nth_error ps i = Some p -> within n p ->
  exists q, nth_error (fst (run l (ps, d))) i = Some q /\ within (n - times i l) q.
Proof.
  induction l as [|c l IH]; intros ps d i p n E W.
  - exists p. split; [exact E|]. rewrite Nat.sub_0_r. exact W.
  - cbn [run fold_left]. destruct (nth_error ps (fst c)) as [q|] eqn:Ej.
    + destruct (turn_some _ _ d _ Ej) as (d' & -> & _). fold (run l (setn ps (fst c) (fst (step q d)), d')).
      unfold times in *. cbn [map count_occ]. destruct (Nat.eq_dec (fst c) i) as [X|N].
      * rewrite X in *. assert (q = p) by congruence. subst q.
        destruct (IH (setn ps i (fst (step p d))) d' i (fst (step p d)) (Nat.pred n)) as (r & Hr & Wr).
        -- rewrite (nth_turn _ _ _ _ _ Ej), Nat.eqb_refl. reflexivity.
        -- apply within_step, W.
        -- exists r. split; [exact Hr|]. replace (n - S (count_occ Nat.eq_dec (map fst l) i)) with (Nat.pred n - count_occ Nat.eq_dec (map fst l) i) by lia. exact Wr.
      * apply IH with (p := p); [|exact W]. rewrite (nth_turn _ _ _ _ _ Ej). apply Nat.eqb_neq in N. rewrite N. exact E.
    + rewrite (turn_none _ _ _ Ej). fold (run l (ps, d)).
      unfold times in *. cbn [map count_occ]. destruct (Nat.eq_dec (fst c) i) as [X|N]; [congruence|].
      apply IH with (p := p); assumption.
Qed.

Lemma run_over : forall l ps d i p n, nth_error ps i = Some p -> within n p -> n <= times i l ->
  exists q, nth_error (fst (run l (ps, d))) i = Some q /\ over q.
Proof.
  intros l ps d i p n E W L. destruct (within_run l ps d i p n E W) as (q & Hq & Wq).
  exists q. split; [exact Hq|]. apply within_over. replace 0 with (n - times i l) by lia. exact Wq.
Qed.

(** ** Processes that only write what they agree on *)
Section Writers.
Variable F : string -> V.
Inductive writer (a : A) : prog V A -> Prop :=
| w_ret : writer a (Ret a)
| w_exists f k : (forall b, writer a (k b)) -> writer a (Exists f k)
| w_trunc f q : writer a q -> writer a (Truncate f (Close f (F f) q))
| w_close f q : writer a q -> writer a (Close f (F f) q).
Variable a : nat -> A.

Definition writers (s : list (prog V A) * dir V) : Prop :=
  (forall i p, nth_error (fst s) i = Some p -> writer (a i) p) /\
  (forall f, fget f (snd s) = Some Torn -> exists i q, nth_error (fst s) i = Some (Close f (F f) q)).

Lemma writer_step : forall x p d, writer x p -> writer x (fst (step p d)).
Proof. intros x p d H. inversion H; subst; cbn [step fst]; auto. constructor. assumption. Qed.

Lemma writers_turn : forall i ps d p d', writers (ps, d) -> nth_error ps i = Some p ->
  after p (setn ps i (fst (step p d))) (snd (step p d)) d' -> writers (setn ps i (fst (step p d)), d').
Proof.
  intros i ps d p d' [W T] E AF. cbn [fst snd] in *. pose proof (W _ _ E) as Wp.
  assert (W' : forall j q, nth_error (setn ps i (fst (step p d))) j = Some q -> writer (a j) q).
  { intros j q. rewrite (nth_turn _ _ _ _ _ E). destruct (Nat.eqb_spec i j) as [<-|_]; [|apply W]. intros [= <-]. apply writer_step, Wp. }
  split; cbn [fst snd]; [exact W'|].
  intros f Hf.
  assert (OLD : fget f (snd (step p d)) = Some Torn -> exists j q, nth_error (setn ps i (fst (step p d))) j = Some (Close f (F f) q)).
  { clear Hf AF. intros Hf.
    assert (K : fget f d = Some Torn -> (forall v q, p = Close f v q -> False) ->
      exists j q, nth_error (setn ps i (fst (step p d))) j = Some (Close f (F f) q)).
    { intros Td Np. destruct (T f Td) as (j & q & Hj). exists j, q. rewrite (nth_turn _ _ _ _ _ E).
      destruct (i =? j) eqn:Eij; [|exact Hj]. apply Nat.eqb_eq in Eij. subst j.
      exfalso. rewrite Hj in E. injection E as E. exact (Np _ _ (eq_sym E)). }
    clear W'. inversion Wp; subst; cbn [step fst snd] in *.
    + apply K; [exact Hf|discriminate].
    + apply K; [exact Hf|discriminate].
    + rewrite fget_fput in Hf. destruct (String.eqb_spec f0 f) as [->|N].
      * exists i, q. rewrite (nth_turn _ _ _ _ _ E), Nat.eqb_refl. reflexivity.
      * apply K; [exact Hf|discriminate].
    + rewrite fget_fput in Hf. destruct (String.eqb_spec f0 f) as [->|N]; [discriminate|].
      apply K; [exact Hf|]. intros v q' [= X _ _]. apply N. exact X. }
  destruct AF as [->|(g & v & k & j & v' & k' & _ & Hj & ->)]; [exact (OLD Hf)|].
  rewrite fget_fput in Hf. destruct (String.eqb_spec g f) as [->|N]; [|exact (OLD Hf)].
  pose proof (W' j _ Hj) as X. inversion X; subst. eexists j, _. exact Hj.
Qed.

Lemma writers_run : forall l s, writers s -> writers (run l s).
Proof. apply run_invariant. exact writers_turn. Qed.

(** Contents. *)
Lemma holds_run : forall names l s, writers s -> holds names F (snd s) -> holds names F (snd (run l s)).
Proof.
  intros names l s W H.
  assert (K : writers (run l s) /\ holds names F (snd (run l s))); [|exact (proj2 K)].
  apply (run_invariant (fun s => writers s /\ holds names F (snd s))); [|split; assumption].
  intros i ps d p d' [W' H'] E AF. split; [eapply writers_turn; eassumption|]. cbn [fst snd] in *.
  pose proof (proj1 W' _ _ E) as Wp.
  assert (OLD : holds names F (snd (step p d))).
  { intros f Hn v. inversion Wp; subst; cbn [step snd fst]; try (apply H'; assumption).
    - rewrite fget_fput. destruct (String.eqb_spec f0 f) as [->|N]; [discriminate|]. apply H'; assumption.
    - rewrite fget_fput. destruct (String.eqb_spec f0 f) as [->|N]; [|apply H'; assumption]. congruence. }
  destruct AF as [->|(g & v & k & j & v' & k' & _ & _ & ->)]; [exact OLD|].
  intros f Hn w. rewrite fget_fput. destruct (String.eqb g f); [discriminate|]. apply OLD, Hn.
Qed.

(** A file the process makes sure of. *)
Inductive will (f : string) : prog V A -> Prop :=
| l_test k : will f (k false) -> will f (Exists f k)
| l_exists g k : (forall b, will f (k b)) -> will f (Exists g k)
| l_this k : will f (Truncate f k)
| l_trunc g k : will f k -> will f (Truncate g k)
| l_close g v k : will f k -> will f (Close g v k).

Lemma fput_present : forall f g (c : content V) d, fget f d <> None -> fget f (fput g c d) <> None.
Proof. intros f g c d H. rewrite fget_fput. destruct (String.eqb g f); [discriminate|exact H]. Qed.

Lemma present_step : forall f p d, fget f d <> None -> fget f (snd (step p d)) <> None.
Proof. intros f p d H. destruct p; cbn [step snd]; try exact H; apply fput_present, H. Qed.

Lemma present_after : forall f p ps d d', after p ps d d' -> fget f d <> None -> fget f d' <> None.
Proof. intros f p ps d d' [->|(g & v & k & j & v' & k' & _ & _ & ->)] H; [exact H|]. apply fput_present, H. Qed.

Lemma will_run : forall f l ps d i p, nth_error ps i = Some p -> will f p \/ fget f d <> None ->
  exists q, nth_error (fst (run l (ps, d))) i = Some q /\ (will f q \/ fget f (snd (run l (ps, d))) <> None).
Proof.
  intros f l ps d i p E W.
  apply (run_invariant (fun s => exists q, nth_error (fst s) i = Some q /\ (will f q \/ fget f (snd s) <> None))); [|exists p; split; assumption].
  clear p E W ps d. intros j ps d p d' (q & Hq & W) E AF. cbn [fst snd] in *.
  destruct (Nat.eqb_spec j i) as [->|N].
  - assert (q = p) by congruence. subst q.
    exists (fst (step p d)). split; [rewrite (nth_turn _ _ _ _ _ E), Nat.eqb_refl; reflexivity|].
    destruct W as [W|W]; [|right; eapply present_after; [exact AF|]; apply present_step, W].
    assert (K : will f (fst (step p d)) \/ fget f (snd (step p d)) <> None);
      [|destruct K as [K|K]; [left; exact K|right; eapply present_after; [exact AF|exact K]]].
    inversion W; subst; cbn [step fst snd].
    + destruct (fget f d) eqn:Ef; [right; congruence|left; assumption].
    + left. auto.
    + right. rewrite fget_same. discriminate.
    + left. assumption.
    + left. assumption.
  - exists q. split; [rewrite (nth_turn _ _ _ _ _ E); apply Nat.eqb_neq in N; rewrite N; exact Hq|].
    destruct W as [W|W]; [left; exact W|right; eapply present_after; [exact AF|]; apply present_step, W].
Qed.

Lemma will_over : forall f p, will f p -> ~ over p.
Proof. intros f p H O. inversion H; subst; exact O. Qed.

(** When every process is over, no file is incomplete. *)
Lemma writer_over : forall x p, writer x p -> over p -> p = Ret x.
Proof. intros x p H O. inversion H; subst; [reflexivity|destruct O|destruct O|destruct O]. Qed.

Lemma writers_closed : forall s, writers s -> (forall i p, nth_error (fst s) i = Some p -> over p) -> closed (snd s).
Proof. intros s [_ T] O f Hf. destruct (T f Hf) as (i & q & Hq). exact (O _ _ Hq). Qed.
End Writers.
End General.

(** * Results *)
Section Results.
Context {P V : Type}.
Variable key : P -> string.
Variable calc : P -> result V.
Variable val : P -> V.
Notation rank := (p_rank key calc).
Notation proc := (prog V (list V)).

(** How far a process with jobs [js] has come. *)
Definition stage (d : dir V) (js : list P) (q : proc) : Prop :=
  exists done todo, (js = done ++ todo /\ forall p, In p done -> fget (key p) d <> None) /\
    (q = rank (map val done) todo \/
     exists p r, todo = p :: r /\ let k v := rank (map val done ++ [v]) r in
       ((q = Load (key p) EOFError k /\ fget (key p) d <> None) \/
        q = Truncate (key p) (Close (key p) (val p) (k (val p))) \/
        q = Close (key p) (val p) (k (val p)))).

Definition failed (q : proc) : Prop := q = Raise EOFError.

Lemma stage_mono : forall d d' js q, (forall f, fget f d <> None -> fget f d' <> None) -> stage d js q -> stage d' js q.
Proof.
  intros d d' js q M (dn & td & [E PD] & H). exists dn, td. split; [split; [exact E|auto]|].
  destruct H as [H|(p & r & Er & H)]; [left; exact H|right]. exists p, r. split; [exact Er|].
  destruct H as [[H H']|H]; [left; split; [exact H|apply M, H']|right; exact H].
Qed.

Definition right_files (js : list P) (d : dir V) : Prop :=
  forall p v, In p js -> fget (key p) d = Some (Complete v) -> v = val p.

Lemma stage_step : forall d js q, (forall p, In p js -> calc p = Ok (val p)) -> right_files js d -> stage d js q ->
  stage (snd (step q d)) js (fst (step q d)) \/ (failed (fst (step q d)) /\ exists p k, In p js /\ q = Load (key p) EOFError k /\ fget (key p) d = Some Torn).
Proof.
  intros d js q C R (dn & td & [E PD] & H). destruct H as [->|(p & r & -> & H)].
  - destruct td as [|p r].
    + left. exists dn, []. split; [split; [exact E|exact PD]|]. left. reflexivity.
    + left. cbn [p_rank]. unfold p_solve. cbn [step fst snd]. exists dn, (p :: r). split; [split; [exact E|exact PD]|]. right. exists p, r. split; [reflexivity|].
      destruct (fget (key p) d) eqn:G.
      * left. split; [reflexivity|congruence].
      * right. left. rewrite (C p) by (subst js; apply in_or_app; right; left; reflexivity). reflexivity.
  - assert (IP : In p js) by (subst js; apply in_or_app; right; left; reflexivity).
    assert (NEXT : forall d' v, v = val p -> fget (key p) d' <> None -> (forall p, In p dn -> fget (key p) d' <> None) -> stage d' js (rank (map val dn ++ [v]) r)).
    { intros d' v -> P1 P2. exists (dn ++ [p]), r.
      split; [split; [rewrite <- app_assoc; exact E|intros x X; apply in_app_or in X; destruct X as [X|[<-|[]]]; [apply P2, X|exact P1]]|]. left. rewrite map_app. reflexivity. }
    destruct H as [[-> G]|[->| ->]]; cbn [step fst snd].
    + destruct (fget (key p) d) as [[v|]|] eqn:E2; [|right|congruence].
      * left. apply NEXT; [exact (R p v IP E2)|congruence|exact PD].
      * split; [reflexivity|]. eexists p, _. split; [exact IP|]. split; [reflexivity|exact E2].
    + left. exists dn, (p :: r). split; [split; [exact E|intros x X; apply fput_present, PD, X]|]. right. exists p, r. split; [reflexivity|]. right. right. reflexivity.
    + left. apply NEXT; [reflexivity|rewrite fget_same; discriminate|intros x X; apply fput_present, PD, X].
Qed.

(** What a process may write. *)
Lemma stage_writes : forall d js q, stage d js q ->
  snd (step q d) = d \/
  (exists p k, In p js /\ q = Truncate (key p) (Close (key p) (val p) k) /\ snd (step q d) = fput (key p) Torn d) \/
  (exists p k, In p js /\ q = Close (key p) (val p) k /\ snd (step q d) = fput (key p) (Complete (val p)) d).
Proof.
  intros d js q (dn & td & [E _] & H). destruct H as [->|(p & r & -> & H)].
  - left. destruct td as [|p r]; reflexivity.
  - assert (IP : In p js) by (subst js; apply in_or_app; right; left; reflexivity).
    destruct H as [[-> G]|[->| ->]]; cbn [step fst snd]; [left; reflexivity|right; left|right; right]; eexists p, _; repeat split; assumption.
Qed.

Lemma stage_close : forall d js f v k, stage d js (Close f v k) -> exists p dn r, In p js /\ f = key p /\ k = rank (map val dn ++ [val p]) r.
Proof.
  intros d js f v k (dn & td & [E _] & H). destruct H as [H|(p & r & -> & H)].
  - destruct td; discriminate H.
  - assert (IP : In p js) by (subst js; apply in_or_app; right; left; reflexivity).
    destruct H as [[H _]|[H|H]]; try discriminate H. injection H as -> -> ->. exists p, dn, r. auto.
Qed.

Lemma stage_start : forall d js, stage d js (rank [] js).
Proof. intros d js. exists [], js. split; [split; [reflexivity|intros p []]|]. left. reflexivity. Qed.

Lemma p_rank_within : forall js s, within (3 * length js) (rank s js).
Proof.
  induction js as [|p r IH]; intros s; cbn [p_rank length]; [constructor|]. unfold p_solve.
  replace (3 * S (length r)) with (S (S (S (3 * length r)))) by lia. constructor. intros [|].
  - constructor. intros v. apply (within_mono (3 * length r)); [apply IH|lia].
  - destruct (calc p); [|constructor]. constructor. constructor. apply IH.
Qed.

Lemma stage_over : forall d js q, stage d js q -> over q -> q = Ret (map val js) /\ forall p, In p js -> fget (key p) d <> None.
Proof.
  intros d js q (dn & td & [E PD] & H) O. destruct H as [->|(p & r & -> & H)].
  - destruct td; [|destruct O]. rewrite app_nil_r in E. subst. split; [reflexivity|exact PD].
  - destruct H as [[-> _]|[->| ->]]; destruct O.
Qed.

Section Processes.
Variable jobs : list (list P).
Hypothesis right : forall js p, In js jobs -> In p js -> calc p = Ok (val p).
Hypothesis agree : forall js js' p p', In js jobs -> In js' jobs -> In p js -> In p' js' -> key p = key p' -> val p = val p'.

Definition all_right (d : dir V) : Prop := forall js, In js jobs -> right_files js d.

(** Any overlap. *)
Definition going (s : list proc * dir V) : Prop :=
  (forall i q, nth_error (fst s) i = Some q -> exists js, nth_error jobs i = Some js /\ (stage (snd s) js q \/ failed q)) /\
  all_right (snd s).

Lemma all_right_after : forall (p : proc) ps d d', after p ps d d' -> all_right d -> all_right d'.
Proof.
  intros p ps d d' [->|(g & v & k & j & v' & k' & _ & _ & ->)] H; [exact H|]. intros js IJ q w IQ. rewrite fget_fput.
  destruct (String.eqb g (key q)); [discriminate|]. exact (H js IJ q w IQ).
Qed.

Lemma going_turn : forall i ps d p d', going (ps, d) -> nth_error ps i = Some p ->
  after p (setn ps i (fst (step p d))) (snd (step p d)) d' -> going (setn ps i (fst (step p d)), d').
Proof.
  intros i ps d p d' [G R] E AF. cbn [fst snd] in *. destruct (G i p E) as (js & Hj & HS).
  assert (IJ : In js jobs) by (eapply nth_error_In; exact Hj). split; cbn [fst snd].
  - intros j q. rewrite (nth_turn _ _ _ _ _ E). destruct (Nat.eqb_spec i j) as [<-|N].
    + intros [= <-]. exists js. split; [exact Hj|]. destruct HS as [HS| ->]; [|right; reflexivity].
      destruct (stage_step d js p (fun p => right js p IJ) (R js IJ) HS) as [X|[X _]]; [left|right; exact X].
      eapply stage_mono; [|exact X]. intros f. exact (present_after f _ _ _ _ AF).
    + intros Hq. destruct (G j q Hq) as (js' & Hj' & HS'). exists js'. split; [exact Hj'|].
      destruct HS' as [HS'|HS']; [left|right; exact HS']. eapply stage_mono; [|exact HS']. intros f H. eapply present_after; [exact AF|]. apply present_step, H.
  - eapply all_right_after; [exact AF|]. destruct HS as [HS| ->]; [|exact R]. intros js' IJ' p' v IP' Gv.
    destruct (stage_writes d js p HS) as [W|[(p1 & k & I1 & _ & W)|(p1 & k & I1 & _ & W)]]; rewrite W in Gv.
    + exact (R js' IJ' p' v IP' Gv).
    + rewrite fget_fput in Gv. destruct (String.eqb (key p1) (key p')); [discriminate|]. exact (R js' IJ' p' v IP' Gv).
    + rewrite fget_fput in Gv. destruct (String.eqb_spec (key p1) (key p')) as [K|K]; [|exact (R js' IJ' p' v IP' Gv)].
      injection Gv as <-. exact (agree js js' p1 p' IJ IJ' I1 IP' K).
Qed.

Lemma nth_start : forall i q, nth_error (map (rank []) jobs) i = Some q -> exists js, nth_error jobs i = Some js /\ q = rank [] js.
Proof. intros i q H. rewrite nth_error_map in H. destruct (nth_error jobs i) as [js|]; [|discriminate]. injection H as <-. exists js. auto. Qed.

Lemma going_start : forall d, all_right d -> going (map (rank []) jobs, d).
Proof.
  intros d R. split; [|exact R]. cbn [fst snd]. intros i q H. destruct (nth_start i q H) as (js & Hj & ->).
  exists js. split; [exact Hj|]. left. apply stage_start.
Qed.

(** No overlap between processes. *)
Hypothesis apart : forall i i' js js' p p', nth_error jobs i = Some js -> nth_error jobs i' = Some js' -> In p js -> In p' js' -> key p = key p' -> i = i'.

Definition owned (s : list proc * dir V) : Prop :=
  forall i js p, nth_error jobs i = Some js -> In p js -> fget (key p) (snd s) = Some Torn ->
    exists v k, nth_error (fst s) i = Some (Close (key p) v k).

Definition smooth (s : list proc * dir V) : Prop :=
  (forall i q, nth_error (fst s) i = Some q -> exists js, nth_error jobs i = Some js /\ stage (snd s) js q) /\
  all_right (snd s) /\ owned s.

Lemma smooth_going : forall s, smooth s -> going s.
Proof. intros s (G & R & _). split; [|exact R]. intros i q H. destruct (G i q H) as (js & Hj & HS). exists js. auto. Qed.

Lemma smooth_turn : forall i ps d p d', smooth (ps, d) -> nth_error ps i = Some p ->
  after p (setn ps i (fst (step p d))) (snd (step p d)) d' -> smooth (setn ps i (fst (step p d)), d').
Proof.
  intros i ps d p d' S E AF. pose proof (going_turn i ps d p d' (smooth_going _ S) E AF) as [G' R']. destruct S as (G & R & O). unfold owned in O. cbn [fst snd] in *.
  destruct (G i p E) as (js & Hj & HS). assert (IJ : In js jobs) by (eapply nth_error_In; exact Hj).
  split; [|split]; cbn [fst snd].
  - intros j q. rewrite (nth_turn _ _ _ _ _ E). destruct (Nat.eqb_spec i j) as [<-|N].
    + intros [= <-]. exists js. split; [exact Hj|].
      destruct (stage_step d js p (fun p => right js p IJ) (R js IJ) HS) as [X|(_ & p1 & k & I1 & E1 & T1)];
        [eapply stage_mono; [|exact X]; intros f; exact (present_after f _ _ _ _ AF)|].
      exfalso. destruct (O i js p1 Hj I1 T1) as (v & k' & H). congruence.
    + intros Hq. destruct (G j q Hq) as (js' & Hj' & HS'). exists js'. split; [exact Hj'|].
      eapply stage_mono; [|exact HS']. intros f H. eapply present_after; [exact AF|]. apply present_step, H.
  - exact R'.
  - assert (AF' : d' = snd (step p d)).
    { destruct AF as [X|(f & v & k & j & v' & k' & -> & Hj2 & _)]; [exact X|]. exfalso.
      destruct (stage_close d js _ _ _ HS) as (p1 & dn & r & I1 & K1 & K2). subst f k.
      rewrite (nth_turn _ _ _ _ _ E) in Hj2. destruct (Nat.eqb_spec i j) as [<-|N].
      - cbn [step fst] in Hj2. destruct r; discriminate Hj2.
      - destruct (G j _ Hj2) as (js2 & Hjs2 & HS2). destruct (stage_close d js2 _ _ _ HS2) as (p2 & _ & _ & I2 & K2 & _).
        apply N. exact (apart i j js js2 p1 p2 Hj Hjs2 I1 I2 K2). }
    subst d'. intros j js' p' Hj' I' T'. cbn [fst snd] in *. rewrite (nth_turn _ _ _ _ _ E).
    destruct (stage_writes d js p HS) as [W|[(p1 & k & I1 & E1 & W)|(p1 & k & I1 & E1 & W)]]; rewrite W in T'.
    + destruct (O j js' p' Hj' I' T') as (v & k & H). destruct (Nat.eqb_spec i j) as [<-|N]; [|exists v, k; exact H].
      exfalso. assert (p = Close (key p') v k) by congruence. subst p. cbn [step snd] in W.
      assert (X : fget (key p') (fput (key p') (Complete v) d) = fget (key p') d) by (rewrite W; reflexivity).
      rewrite fget_same, T' in X. discriminate X.
    + rewrite fget_fput in T'. destruct (String.eqb_spec (key p1) (key p')) as [K|K].
      * pose proof (apart i j js js' p1 p' Hj Hj' I1 I' K) as <-. rewrite Nat.eqb_refl. subst p. cbn [step fst]. rewrite K. eexists _, _. reflexivity.
      * destruct (O j js' p' Hj' I' T') as (v & k' & H). destruct (Nat.eqb_spec i j) as [<-|N]; [|exists v, k'; exact H]. congruence.
    + rewrite fget_fput in T'. destruct (String.eqb_spec (key p1) (key p')) as [K|K]; [discriminate|].
      destruct (O j js' p' Hj' I' T') as (v & k' & H). destruct (Nat.eqb_spec i j) as [<-|N]; [|exists v, k'; exact H].
      exfalso. apply K. congruence.
Qed.

Lemma smooth_start : forall d, all_right d -> (forall js p, In js jobs -> In p js -> fget (key p) d <> Some Torn) -> smooth (map (rank []) jobs, d).
Proof.
  intros d R N. split; [|split; [exact R|]]; cbn [fst snd].
  - intros i q H. destruct (nth_start i q H) as (js & Hj & ->). exists js. split; [exact Hj|]. apply stage_start.
  - intros i js p Hj I T. exfalso. cbn [snd] in T. apply (N js p); [eapply nth_error_In; exact Hj|exact I|exact T].
Qed.
End Processes.

(** A process alone is [solve] for one point after the other. *)
Lemma solo_solve : forall A negative p (k : V -> prog V A) d,
  solo (p_solve key calc p k) d =
  match solve key calc negative (Some d) p with (Ok v, _, Some d') => solo (k v) d' | (Err x, _, Some d') => (Err x, d') | (_, _, None) => (Err TypeError, d) end.
Proof.
  intros A negative p k d. unfold p_solve, solve, pre_solve. cbn [solo]. destruct (fget (key p) d) as [[v|]|] eqn:E; cbn [solo unpickle bind].
  - rewrite E. reflexivity.
  - rewrite E. reflexivity.
  - destruct (calc p) as [g|x]; cbn [solo post_solve]; [|reflexivity]. f_equal.
    clear. induction d as [|[m c] r IH]; cbn [fput].
    + rewrite String.eqb_refl. reflexivity.
    + destruct (String.eqb m (key p)) eqn:E; cbn [fput]; rewrite E; [reflexivity|]. rewrite IH. reflexivity.
Qed.
End Results.
