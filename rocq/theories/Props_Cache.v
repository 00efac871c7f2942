(** Property theorems C29, C45: cached results, and brigades using the cache. *)
From Coq Require Import String ZArith List Bool Lia Permutation Qcanon QArith Qabs.
From Verif Require Import Base Model Space System Spec_engine Ring Coef Spec_eom Solvers Spec_solve LinSolve Props_Engine Props_Solve Utils Mpi Spec_mpi Props_Mpi Keys Props_Petsc Cache Brigade.
From Verif Require Keys_proofs Cache_proofs Brigade_proofs Sparse_proofs.
Import ListNotations.
Open Scope list_scope.
Open Scope nat_scope.

(** C29.  Any sequence of calls on any directory whose files are complete and
    hold the value of the point asked for: if equal names are only given to
    points with equal results, the results are those without directory, and
    afterwards the directory holds them. *)
Theorem C29_transparent : forall P V (key : P -> string) (calc : P -> result V) negative d ps,
  (forall p c, In p ps -> fget (key p) d = Some c -> exists v, c = Complete v /\ calc p = Ok v) ->
  (forall p q, In p ps -> In q ps -> key p = key q -> calc p = calc q) ->
  exists d', history key calc negative (Some d) (map Solve ps) = (map calc ps, Some d') /\
    history key calc negative None (map Solve ps) = (map calc ps, None) /\
    (forall p v, In p ps -> calc p = Ok v -> fget (key p) d' = Some (Complete v)) /\
    (forall x, (forall p, In p ps -> key p <> x) -> fget x d' = fget x d).
Proof.
  intros P V key calc negative d ps S I.
  destruct (Cache_proofs.history_sound key calc negative ps d (fun p H c => S p c H) I) as [d' [E [A B]]]. exists d'. split; [exact E|].
  split; [|split; assumption]. clear. induction ps as [|p ps IH]; [reflexivity|]. cbn [map history]. unfold solve, pre_solve. destruct (calc p) as [v|x]; cbn [post_solve]; rewrite IH; reflexivity.
Qed.
Print Assumptions C29_transparent.

(** What a file holds is returned, whatever the calculation would give; a call
    never changes an existing file. *)
Theorem C29_stored : forall P V (key : P -> string) (calc : P -> result V) negative d p v,
  fget (key p) d = Some (Complete v) -> solve key calc negative (Some d) p = (Ok v, false, Some d).
Proof. intros P V key calc negative d p v G. unfold solve, pre_solve. rewrite G. reflexivity. Qed.
Print Assumptions C29_stored.
Theorem C29_never_replaced : forall P V (key : P -> string) (calc : P -> result V) negative es d x c, fget x d = Some c ->
  exists rs d', history key calc negative (Some d) es = (rs, Some d') /\ fget x d' = Some c.
Proof. intros P V key calc negative es d x c G. exact (Cache_proofs.history_keeps key calc negative es d x c G). Qed.
Print Assumptions C29_never_replaced.

(** A failing calculation is not stored. *)
Theorem C29_errors : forall P V (key : P -> string) (calc : P -> result V) negative d p x,
  fget (key p) d = None -> calc p = Err x -> solve key calc negative (Some d) p = (Err x, false, Some d).
Proof. intros P V key calc negative d p x G E. unfold solve, pre_solve. rewrite G, E. reflexivity. Qed.
Print Assumptions C29_errors.

(** For points: the names of two points agree only if every coordinate agrees up
    to 1e-10, so a sequence of equal or separated points is safe. *)
Definition point : Type := (Q * Q * Q)%type.
Definition rkey (p : point) : string := result_name fmt10 (fst (fst p)) (snd (fst p)) (snd p).
Definition apart (x y : Q) : Prop := ((1 # 10000000000) < Qabs (x - y))%Q.
Definition distinct (p q : point) : Prop :=
  apart (fst (fst p)) (fst (fst q)) \/ apart (snd (fst p)) (snd (fst q)) \/ apart (snd p) (snd q).

Lemma rkey_distinct : forall p q, rkey p = rkey q -> ~ distinct p q.
Proof.
  intros [[a b] c] [[a' b'] c'] E D. unfold rkey in E. cbn [fst snd] in E. apply Keys_proofs.result_name_inj in E. destruct E as [E1 [E2 E3]].
  apply Keys_proofs.fmt10_close in E1. apply Keys_proofs.fmt10_close in E2. apply Keys_proofs.fmt10_close in E3.
  destruct D as [D|[D|D]]; cbn [fst snd] in D; unfold apart in D; eapply Qlt_not_le; eauto.
Qed.

Theorem C29_points : forall V (calc : point -> result V) negative ps, (forall p q, In p ps -> In q ps -> p = q \/ distinct p q) ->
  exists d', history rkey calc negative (Some []) (map Solve ps) = (map calc ps, Some d') /\
    forall p v, In p ps -> calc p = Ok v -> fget (rkey p) d' = Some (Complete v).
Proof.
  intros V calc negative ps S. destruct (C29_transparent _ _ rkey calc negative [] ps) as [d' [E [_ [A _]]]].
  - intros p c _ G. discriminate G.
  - intros p q HP HQ K. destruct (S p q HP HQ) as [->|D]; [reflexivity|]. exfalso. exact (rkey_distinct p q K D).
  - exists d'. auto.
Qed.
Print Assumptions C29_points.

(** A later solver on the directory an earlier one has filled. *)
Theorem C29_reuse : forall V (calc : point -> result V) negative ps qs, (forall p q, In p (ps ++ qs) -> In q (ps ++ qs) -> p = q \/ distinct p q) ->
  let d' := snd (history rkey calc negative (Some []) (map Solve ps)) in
  fst (history rkey calc negative d' (map Solve qs)) = map calc qs.
Proof.
  intros V calc negative ps qs S. destruct (C29_points V calc negative (ps ++ qs) S) as [d2 [E _]].
  destruct (C29_points V calc negative ps) as [d1 [E1 _]]; [intros; apply S; apply in_or_app; auto|].
  cbv zeta. rewrite map_app in E.
  assert (APP : forall es fs d, history rkey calc negative d (es ++ fs) =
    (let '(a, d1) := history rkey calc negative d es in let '(b, d2) := history rkey calc negative d1 fs in (a ++ b, d2))).
  { clear. induction es as [|[p|p] es IH]; intros fs d; cbn [app history].
    - destruct (history rkey calc negative d fs); reflexivity.
    - destruct (solve rkey calc negative d p) as [[r l] d1]. rewrite IH. destruct (history rkey calc negative d1 es) as [a d2].
      destruct (history rkey calc negative d2 fs); reflexivity.
    - apply IH. }
  rewrite APP, E1 in E. rewrite E1. cbn [snd]. destruct (history rkey calc negative (Some d1) (map Solve qs)) as [b d3]. cbn [fst].
  injection E as E _. rewrite map_app in E. apply app_inv_head in E. exact E.
Qed.
Print Assumptions C29_reuse.

(** An incomplete file: EOFError at every later call, and it stays. *)
Theorem C29_torn : forall P V (key : P -> string) (calc : P -> result V) negative es d p, fget (key p) d = Some Torn ->
  exists rs d', history key calc negative (Some d) es = (rs, Some d') /\
    solve key calc negative (Some d') p = (Err EOFError, false, Some d').
Proof.
  intros P V key calc negative es d p G. destruct (C29_never_replaced _ _ key calc negative es d (key p) Torn G) as [rs [d' [E G']]].
  exists rs, d'. split; [exact E|]. unfold solve, pre_solve. rewrite G'. reflexivity.
Qed.
Print Assumptions C29_torn.

(** Hence a crash is not harmless: for every calculation with a result, killing
    the process while it is written makes that point unavailable. *)
Theorem C29_crash : forall P V (key : P -> string) (calc : P -> result V) negative p v, calc p = Ok v ->
  fst (history key calc negative (Some []) [Killed p; Solve p]) = [Err EOFError].
Proof.
  intros P V key calc negative p v E. cbn [history]. unfold killed, pre_solve. cbn [fget bind]. rewrite E. cbn [fput].
  unfold solve, pre_solve. cbn [fget]. rewrite String.eqb_refl. reflexivity.
Qed.
Print Assumptions C29_crash.
Theorem C29_crash_refuted : exists (key : Z -> string) (calc : Z -> result Z) p v, calc p = Ok v /\
  fst (history key calc (fun _ => false) (Some []) [Killed p; Solve p]) <> [calc p].
Proof.
  exists (fun _ => "x"%string), (fun z => Ok z), 1%Z, 1%Z. split; [reflexivity|]. rewrite (C29_crash _ _ _ _ _ 1%Z 1%Z eq_refl). discriminate.
Qed.
Print Assumptions C29_crash_refuted.

(** Witnesses: the Holstein system of Props_Petsc. *)
Definition c_calc (s : system Z) (p : point) : result Qcf := sparse_solve (w_env (fst p)) (gauss_sparse (F := Qcf) Qc_eq_dec) s.
Definition c_points : list point := [(0, 1 # 4, w_eta); (0, 1 # 3, w_eta); (0, 1 # 4, w_eta)]%Q.
Definition okq (r : result Qcf) : bool := match r with Ok _ => true | Err _ => false end.
Definition diff (r r' : result Qcf) : bool := match r, r' with Ok a, Ok b => negb (qb a b) | _, _ => false end.
Lemma diff_ok : forall r r', diff r r' = true -> r <> r'.
Proof. intros [a|] [b|] H E; try discriminate. injection E as ->. unfold diff, qb, Qc_eq_bool in H. destruct (Qc_eq_dec b b); [discriminate|congruence]. Qed.

Example C29_nonvacuous : exists s d', prime_system id_ord h_model = Ok s /\
  (forall p q, In p c_points -> In q c_points -> p = q \/ distinct p q) /\
  history rkey (c_calc s) (fun _ => false) (Some []) (map Solve c_points) = (map (c_calc s) c_points, Some d') /\
  List.length d' = 2 /\ forall p, In p c_points -> exists v, c_calc s p = Ok v.
Proof.
  destruct (sys_ex id_ord h_model (fun s => forallb (fun p => okq (c_calc s p)) c_points)) as [s [E H]]; [vm_compute; reflexivity|].
  assert (D : forall p q, In p c_points -> In q c_points -> p = q \/ distinct p q).
  { unfold c_points. cbn [In]. intros p q HP HQ.
    repeat (destruct HP as [<-|HP]; [|]); try (destruct HP); repeat (destruct HQ as [<-|HQ]; [|]); try (destruct HQ);
      first [left; reflexivity|right; right; left; reflexivity]. }
  rewrite forallb_forall in H.
  assert (V : forall p, In p c_points -> exists v, c_calc s p = Ok v).
  { intros p HP. specialize (H p HP). destruct (c_calc s p) as [v|]; [eauto|discriminate]. }
  destruct (V _ (or_introl eq_refl)) as [v1 E1]. destruct (V _ (or_intror (or_introl eq_refl))) as [v2 E2].
  exists s, [(rkey (0, 1 # 4, w_eta)%Q, Complete v1); (rkey (0, 1 # 3, w_eta)%Q, Complete v2)].
  split; [exact E|]. split; [exact D|]. split; [|split; [reflexivity|exact V]].
  destruct (C29_points _ (c_calc s) (fun _ => false) c_points D) as [d' [EH _]]. rewrite EH. f_equal. f_equal.
  assert (X : snd (history rkey (c_calc s) (fun _ => false) (Some []) (map Solve c_points)) = Some d') by (rewrite EH; reflexivity).
  assert (NE : String.eqb (rkey (0, 1 # 4, w_eta)%Q) (rkey (0, 1 # 3, w_eta)%Q) = false) by (vm_compute; reflexivity).
  remember (0, 1 # 4, w_eta)%Q as a. remember (0, 1 # 3, w_eta)%Q as b.
  assert (CP : c_points = [a; b; a]) by (subst; reflexivity). rewrite CP in X. cbn [map history] in X.
  unfold solve at 1 in X. unfold pre_solve at 1 in X. cbn [fget] in X. rewrite E1 in X. cbn [post_solve fput] in X.
  unfold solve at 1 in X. unfold pre_solve at 1 in X. cbn [fget] in X. rewrite NE, E2 in X. cbn [post_solve fput] in X. rewrite NE in X.
  unfold solve at 1 in X. unfold pre_solve at 1 in X. cbn [fget] in X. rewrite String.eqb_refl in X. cbn [unpickle bind snd] in X.
  injection X as <-. reflexivity.
Qed.

(** Two points that differ by 1e-11: the second gets the value of the first. *)
Theorem C29_collision_refuted : exists s p q, prime_system id_ord h_model = Ok s /\
  fst (history rkey (c_calc s) (fun _ => false) (Some []) [Solve p; Solve q]) <> [c_calc s p; c_calc s q].
Proof.
  pose (p := (0, 1 # 4, w_eta)%Q). pose (q := (0, (1 # 4) + (1 # 100000000000), w_eta)%Q).
  destruct (sys_ex id_ord h_model (fun s => diff (c_calc s p) (c_calc s q))) as [s [E H]]; [vm_compute; reflexivity|].
  exists s, p, q. split; [exact E|]. pose proof (diff_ok _ _ H) as N.
  assert (K : String.eqb (rkey p) (rkey q) = true) by (vm_compute; reflexivity).
  destruct (c_calc s p) as [v|] eqn:Ev; [|discriminate]. cbn [history]. unfold solve at 1. unfold pre_solve at 1. cbn [fget]. rewrite Ev. cbn [post_solve fput].
  unfold solve, pre_solve. cbn [fget]. rewrite K. cbn [unpickle bind fst]. congruence.
Qed.
Print Assumptions C29_collision_refuted.

(** The directory does not know the model: with the results of another model
    (here: other parameters) in it, these are returned. *)
Theorem C29_other_model_refuted : exists s p, prime_system id_ord h_model = Ok s /\
  let calc' (p : point) := sparse_solve (h_env (Props_Solve.q 1 7) (Props_Solve.q 1 3)) (gauss_sparse (F := Qcf) Qc_eq_dec) s in
  let d' := snd (history rkey calc' (fun _ => false) (Some []) [Solve p]) in
  fst (history rkey (c_calc s) (fun _ => false) d' [Solve p]) <> [c_calc s p].
Proof.
  pose (p := (0, 1 # 4, w_eta)%Q).
  destruct (sys_ex id_ord h_model (fun s => diff (sparse_solve (h_env (Props_Solve.q 1 7) (Props_Solve.q 1 3)) (gauss_sparse (F := Qcf) Qc_eq_dec) s) (c_calc s p))) as [s [E H]]; [vm_compute; reflexivity|].
  exists s, p. split; [exact E|]. cbv zeta. pose proof (diff_ok _ _ H) as N.
  set (r := sparse_solve (h_env (Props_Solve.q 1 7) (Props_Solve.q 1 3)) (gauss_sparse (F := Qcf) Qc_eq_dec) s) in *. clearbody r.
  destruct r as [v|]; [|discriminate]. cbn [history]. unfold solve at 2. unfold pre_solve at 1. cbn [fget post_solve fput snd].
  cbn [history]. unfold solve, pre_solve. cbn [fget]. rewrite String.eqb_refl. cbn [unpickle bind fst]. congruence.
Qed.
Print Assumptions C29_other_model_refuted.

(** * C45 *)
(** For every brigade, list of points with different file names, directory
    whose files are complete, every behaviour of the other brigades (which do
    not write files of these points) and every interleaving: *)
Theorem C45_same_branch : forall p jobs others d0 ls s, 0 < p -> NoDup jobs -> (forall k, In k jobs -> ~ others k) ->
  (forall k c, In k jobs -> fget k d0 = Some c -> c = Complete tt) -> run p jobs others (start d0) ls s ->
  forall r j, (In (Found r j) ls -> exists k, nth_error jobs j = Some k /\ fget k d0 <> None) /\
              (In (Missing r j) ls -> exists k, nth_error jobs j = Some k /\ fget k d0 = None).
Proof.
  intros p jobs others d0 ls s P ND OUT D R r j.
  destruct (Brigade_proofs.branches p jobs others d0 P ND OUT D _ _ _ 0 (Brigade_proofs.start_inv p jobs others d0 P OUT D) R) as [A B]. split; intros H.
  - destruct (A r j H) as [k [K F]]. exists k. split; [exact K|]. unfold Brigade_proofs.fresh in F. destruct (fget k d0); [discriminate|discriminate F].
  - destruct (B r j H) as [k [K F]]. exists k. split; [exact K|]. unfold Brigade_proofs.fresh in F. destruct (fget k d0); [discriminate F|reflexivity].
Qed.
Print Assumptions C45_same_branch.

(** all ranks waiting in a collective operation wait for the same point, *)
Theorem C45_matching : forall p jobs others d0 ls s, 0 < p -> NoDup jobs -> (forall k, In k jobs -> ~ others k) ->
  (forall k c, In k jobs -> fget k d0 = Some c -> c = Complete tt) -> run p jobs others (start d0) ls s ->
  forall r r', r < p -> r' < p -> snd (ranks s r) = Coll -> snd (ranks s r') = Coll -> fst (ranks s r) = fst (ranks s r').
Proof.
  intros p jobs others d0 ls s P ND OUT D R r r' Hr Hr' E E'.
  destruct (Brigade_proofs.run_inv p jobs others d0 P ND OUT D _ _ _ 0 (Brigade_proofs.start_inv p jobs others d0 P OUT D) R) as [C V].
  exact (Brigade_proofs.same_job p jobs others d0 P OUT D s C r r' V Hr Hr' E E').
Qed.
Print Assumptions C45_matching.

(** nobody reads an incomplete file, and there is no deadlock, *)
Theorem C45_progress : forall p jobs others d0 ls s, 0 < p -> NoDup jobs -> (forall k, In k jobs -> ~ others k) ->
  (forall k c, In k jobs -> fget k d0 = Some c -> c = Complete tt) -> run p jobs others (start d0) ls s ->
  (forall r, r < p -> snd (ranks s r) <> Failed) /\
  (finished p jobs s \/ exists l s', l <> Outside /\ step p jobs others s l s').
Proof.
  intros p jobs others d0 ls s P ND OUT D R.
  destruct (Brigade_proofs.run_inv p jobs others d0 P ND OUT D _ _ _ 0 (Brigade_proofs.start_inv p jobs others d0 P OUT D) R) as [C V]. split.
  - intros r Hr E. pose proof (Brigade_proofs.i_phase p jobs d0 s C V r Hr) as X. rewrite E in X. exact X.
  - exact (Brigade_proofs.progress p jobs others d0 P OUT D s C V).
Qed.
Print Assumptions C45_progress.

(** and the ranks of the brigade take no more than 5 steps per point and rank
    (this for every list of points and directory). *)
Theorem C45_bound : forall p jobs others d0 ls s, run p jobs others (start d0) ls s ->
  List.length (filter (fun l => match l with Outside => false | _ => true end) ls) <= 5 * p * List.length jobs.
Proof.
  intros p jobs others d0 ls s R.
  pose proof (Brigade_proofs.run_bound p jobs others _ _ _ (Brigade_proofs.start_within p jobs d0) R) as B. rewrite Brigade_proofs.start_total in B.
  change (fun l => match l with Outside => false | _ => true end) with Brigade_proofs.own. lia.
Qed.
Print Assumptions C45_bound.

(** At the end every point has its file. *)
Theorem C45_complete : forall p jobs others d0 ls s, 0 < p -> NoDup jobs -> (forall k, In k jobs -> ~ others k) ->
  (forall k c, In k jobs -> fget k d0 = Some c -> c = Complete tt) -> run p jobs others (start d0) ls s -> finished p jobs s ->
  forall k, In k jobs -> fget k (files s) = Some (Complete tt).
Proof.
  intros p jobs others d0 ls s P ND OUT D R F k K.
  destruct (Brigade_proofs.run_inv p jobs others d0 P ND OUT D _ _ _ 0 (Brigade_proofs.start_inv p jobs others d0 P OUT D) R) as [C V].
  exact (Brigade_proofs.final_files p jobs d0 P s C k V F K).
Qed.
Print Assumptions C45_complete.

(** The hypotheses hold for the brigades of a run on a grid without repeated or
    too close points: names within a brigade differ, and no two brigades share
    one. *)
Theorem C45_grid : forall W bs k w ks ws eta, brigaded W bs -> brigade_grid Qgrid W bs k w = Ok (ks, ws) ->
  separated ks -> separated ws -> NoDup ks -> NoDup ws ->
  forall r r' mine theirs, r < W -> r' < W -> 
  jobs_on_brigade W bs r (points ks ws) = Ok mine -> jobs_on_brigade W bs r' (points ks ws) = Ok theirs ->
  let names := map (fun p => rkey (p, eta)) in
  NoDup (names mine) /\ (mpi_brigade bs r <> mpi_brigade bs r' -> forall x, In x (names mine) -> ~ In x (names theirs)).
Proof.
  intros W bs k w ks ws eta HB EG SK SW NK NW r r' mine theirs Hr Hr' EM ET names.
  destruct (C25_balanced _ Qgrid W bs k w ks ws HB EG) as [parts [L [C [_ J]]]].
  rewrite (J r Hr) in EM. rewrite (J r' Hr') in ET. injection EM as EM. injection ET as ET.
  assert (INJ : forall p q, In p (points ks ws) -> In q (points ks ws) -> rkey (p, eta) = rkey (q, eta) -> p = q).
  { intros [a b] [a' b'] HP HQ E. apply in_prod_iff in HP. apply in_prod_iff in HQ. destruct HP as [A B], HQ as [A' B'].
    pose proof (rkey_distinct _ _ E) as ND. unfold distinct in ND. cbn [fst snd] in ND.
    destruct (SK a a' A A') as [->|X]; [|exfalso; apply ND; left; exact X]. destruct (SW b b' B B') as [->|X]; [reflexivity|exfalso; apply ND; right; left; exact X]. }
  assert (NP : NoDup (points ks ws)).
  { unfold points. clear -NK NW. induction NK as [|x l N _ IH]; cbn [list_prod]; [constructor|].
    assert (X : forall l', NoDup l' -> (forall y, In y l' -> ~ In y (map (fun y => (x, y)) ws)) -> NoDup (map (fun y => (x, y)) ws ++ l')).
    { intros l' NL D. clear IH. induction NW as [|y ys Ny _ IHy]; cbn [map app]; [exact NL|]. constructor.
      - intros H. apply in_app_or in H. destruct H as [H|H]; [apply in_map_iff in H; destruct H as [z [E Z]]; congruence|]. apply (D _ H). left. reflexivity.
      - apply IHy. intros z Z H. apply (D z Z). right. exact H. }
    apply X; [exact IH|]. intros [a b] H H'. apply in_prod_iff in H. apply in_map_iff in H'. destruct H' as [z [E Z]]. injection E as <- <-. apply N. apply H. }
  assert (NN : NoDup (map (fun p => rkey (p, eta)) (points ks ws))).
  { clear -NP INJ. revert INJ NP. generalize (points ks ws). intros l I N. induction N as [|x l NI _ IH]; cbn [map]; [constructor|]. constructor.
    - intros H. apply in_map_iff in H. destruct H as [y [E Y]]. apply NI. rewrite <- (I y x); auto; [right; exact Y|left; reflexivity].
    - apply IH. intros p q HP HQ. apply I; right; assumption. }
  rewrite <- C in NN. rewrite concat_map in NN.
  assert (SPLIT : forall (ls : list (list string)) i, NoDup (List.concat ls) -> NoDup (nth i ls []) /\
     forall j, i <> j -> forall x, In x (nth i ls []) -> ~ In x (nth j ls [])).
  { clear. intros ls. induction ls as [|a ls IH]; intros i N; [destruct i; (split; [constructor|intros j _ x []])|]. cbn [List.concat] in N.
    assert (NA : NoDup a /\ NoDup (List.concat ls) /\ forall x, In x a -> ~ In x (List.concat ls)).
    { clear IH. induction a as [|x a IHa]; [split; [constructor|split; [exact N|intros x []]]|]. cbn [app] in N. apply NoDup_cons_iff in N. destruct N as [NI N].
      destruct (IHa N) as [A [B D]]. split; [constructor; [|exact A]; intros H; apply NI; apply in_or_app; left; exact H|]. split; [exact B|].
      intros y [<-|Y]; [intros H; apply NI; apply in_or_app; right; exact H|apply D; exact Y]. }
    destruct NA as [A [B D]].
    assert (IN : forall j x, In x (nth j ls []) -> In x (List.concat ls)).
    { intros j x H. apply in_concat. exists (nth j ls []). split; [|exact H]. destruct (nth_in_or_default j ls []) as [Y|Y]; [exact Y|rewrite Y in H; destruct H]. }
    destruct i as [|i]; cbn [nth].
    - split; [exact A|]. intros [|j] NE x X; [congruence|]. intros H. apply (D x X). apply (IN j x H).
    - destruct (IH i B) as [E F]. split; [exact E|]. intros [|j] NE x X; [intros H; apply (D x H); apply (IN i x X)|]. apply F; [congruence|exact X]. }
  assert (NM : forall i, nth i (map (map (fun p => rkey (p, eta))) parts) [] = names (nth i parts [])).
  { intros i. change (@nil string) with (names []) at 1. apply map_nth. }
  destruct (SPLIT _ (Z.to_nat (mpi_brigade bs r)) NN) as [A B]. rewrite NM, EM in A, B. split; [exact A|].
  intros NE x X H. apply (B (Z.to_nat (mpi_brigade bs r'))) with (x := x); [|exact X|rewrite NM, ET; exact H].
  assert (POS : forall r, (0 <= mpi_brigade bs r)%Z).
  { intros y. unfold mpi_brigade. destruct bs as [b|]; [|lia]. pose proof (br_pos _ _ HB b eq_refl). apply Z.quot_pos; lia. }
  intros EQ. apply NE. rewrite <- (Z2Nat.id (mpi_brigade bs r)), <- (Z2Nat.id (mpi_brigade bs r')), EQ by apply POS. reflexivity.
Qed.
Print Assumptions C45_grid.

Ltac two_ranks := match goal with |- forall r, r < 2 -> _ => intros [|[|r]] ?; [reflexivity|reflexivity|lia] end.
Ltac found r := eapply run_cons; [eapply (step_found _ _ _ _ r); [lia|reflexivity|reflexivity|reflexivity]|].
Ltac missing r := eapply run_cons; [eapply (step_missing _ _ _ _ r); [lia|reflexivity|reflexivity|reflexivity]|].
Ltac load r := eapply run_cons; [eapply (step_load _ _ _ _ r); [lia|reflexivity|reflexivity|reflexivity]|].
Ltac torn r := eapply run_cons; [eapply (step_load_torn _ _ _ _ r); [lia|reflexivity|reflexivity|reflexivity]|].
Ltac together := eapply run_cons; [eapply step_collective; [lia|two_ranks]|].
Ltac create := eapply run_cons; [eapply step_create; [lia|reflexivity|reflexivity]|].
Ltac fill := eapply run_cons; [eapply step_write; [lia|reflexivity|reflexivity]|].

(** Two ranks, two points, the second in the directory; the second rank runs
    ahead of the writing of the file. *)
Example C45_nonvacuous : let d0 := [("b"%string, Complete tt)] in
  exists ls s, run 2 ["a"%string; "b"%string] (fun k => k = "c"%string) (start d0) ls s /\ finished 2 ["a"%string; "b"%string] s /\
    NoDup ["a"%string; "b"%string] /\ (forall k, In k ["a"%string; "b"%string] -> k <> "c"%string) /\
    (forall k c, In k ["a"%string; "b"%string] -> fget k d0 = Some c -> c = Complete tt) /\ In (Found 1 1) ls /\ In (Missing 1 0) ls.
Proof.
  intros d0. subst d0. do 2 eexists. split.
  - missing 0. missing 1. together. found 1. load 1. create. eapply run_cons; [eapply (step_outside _ _ _ _ "c"%string Torn); reflexivity|]. fill. found 0. load 0. apply run_nil.
  - split; [intros [|[|r]] H; [reflexivity|reflexivity|lia]|]. split; [repeat constructor; cbn; intuition congruence|].
    split; [cbn; intros k [<-|[<-|[]]]; discriminate|]. split; [cbn; intros k c [<-|[<-|[]]] E; cbn in E; congruence|]. split; cbn; auto 10.
Qed.

(** The two hypotheses are needed.  Two points with the same name: one rank
    computes the second point, the other finds the file of the first: the first
    waits for ever. *)
Definition stuck (p : nat) (jobs : list string) (others : string -> Prop) (s : bstate) : Prop :=
  ~ finished p jobs s /\ forall ls s', run p jobs others s ls s' -> forall l, In l ls -> l = Outside.

Lemma stuck_ranks : forall p jobs others s, 0 < p -> ~ finished p jobs s ->
  (forall r, r < p -> ranks s r = (List.length jobs, Check) \/ snd (ranks s r) = Coll) -> (exists r, r < p /\ snd (ranks s r) <> Coll) -> stuck p jobs others s.
Proof.
  intros p jobs others s P NF A [r0 [R0 E0]]. split; [exact NF|]. intros ls s' H.
  assert (W : forall s1, ranks s1 = ranks s -> forall l s2, step p jobs others s1 l s2 -> l = Outside /\ ranks s2 = ranks s).
  { intros s1 ER l s2 ST. destruct ST as [s1 r j k c R E K G|s1 r j k R E K G|s1 r j k R E K G|s1 r j k R E K G|s1 R E|s1 j k R E K|s1 j k R E K|s1 k c O].
    1-4: rewrite ER in E; destruct (A r R) as [X|X]; rewrite E in X; [|discriminate X]; try discriminate X; injection X as ->;
      exfalso; apply (Nat.lt_irrefl (List.length jobs)); apply nth_error_Some; congruence.
    - exfalso. apply E0. rewrite <- ER. apply E. exact R0.
    - rewrite ER in E. destruct (A 0 R) as [X|X]; rewrite E in X; discriminate X.
    - rewrite ER in E. destruct (A 0 R) as [X|X]; rewrite E in X; discriminate X.
    - split; [reflexivity|exact ER]. }
  assert (Z : ranks s = ranks s) by reflexivity. revert Z. generalize (ranks s) at 2 as f. intros f Z.
  assert (W' : forall s1, ranks s1 = f -> forall l s2, step p jobs others s1 l s2 -> l = Outside /\ ranks s2 = f).
  { intros s1 E l s2 ST. rewrite <- Z. apply (W s1); [congruence|exact ST]. }
  clear W A E0 NF R0. revert Z. induction H as [s|s l s1 ls s2 H1 H2 IH]; intros Z l0 I; [destruct I|].
  destruct (W' s Z _ _ H1) as [-> Z1]. destruct I as [<-|I]; [reflexivity|]. exact (IH Z1 l0 I).
Qed.

Theorem C45_equal_names_refuted : exists jobs ls s, run 2 jobs (fun _ => False) (start []) ls s /\ stuck 2 jobs (fun _ => False) s.
Proof.
  exists ["a"%string; "a"%string]. do 2 eexists. split.
  - missing 0. missing 1. together. missing 1. create. fill. found 0. load 0. apply run_nil.
  - apply stuck_ranks; [lia| | |].
    + intros F. specialize (F 1 ltac:(lia)). discriminate F.
    + intros [|[|r]] H; [left; reflexivity|right; reflexivity|lia].
    + exists 0. split; [lia|discriminate].
Qed.
Print Assumptions C45_equal_names_refuted.

(** Or it reads the file while it is being written. *)
Theorem C45_torn_refuted : exists jobs ls s, run 2 jobs (fun _ => False) (start []) ls s /\ snd (ranks s 1) = Failed.
Proof.
  exists ["a"%string; "a"%string]. do 2 eexists. split.
  - missing 0. missing 1. together. create. found 1. torn 1. apply run_nil.
  - reflexivity.
Qed.
Print Assumptions C45_torn_refuted.

(** Another brigade writing a file of this brigade: deadlock. *)
Theorem C45_other_brigade_refuted : exists jobs others ls s, NoDup jobs /\ run 2 jobs others (start []) ls s /\ stuck 2 jobs others s.
Proof.
  exists ["a"%string], (fun k => k = "a"%string). do 2 eexists. split; [repeat constructor; intros []|]. split.
  - missing 0. eapply run_cons; [eapply (step_outside _ _ _ _ "a"%string (Complete tt)); reflexivity|]. found 1. load 1. apply run_nil.
  - apply stuck_ranks; [lia| | |].
    + intros F. specialize (F 0 ltac:(lia)). discriminate F.
    + intros [|[|r]] H; [right; reflexivity|left; reflexivity|lia].
    + exists 1. split; [lia|discriminate].
Qed.
Print Assumptions C45_other_brigade_refuted.

(** The padding can produce such a point from a grid without repetition. *)
Theorem C45_padding_refuted : exists W bs k w ks ws eta mine theirs x, brigaded W bs /\ separated k /\ NoDup k /\ separated w /\ NoDup w /\
  brigade_grid Qgrid W bs (AList k) (AList w) = Ok (ks, ws) /\
  jobs_on_brigade W bs 0 (points ks ws) = Ok mine /\ jobs_on_brigade W bs 2 (points ks ws) = Ok theirs /\ mpi_brigade bs 0 <> mpi_brigade bs 2 /\
  In x (map (fun p => rkey (p, eta)) mine) /\ In x (map (fun p => rkey (p, eta)) theirs).
Proof.
  exists 4, (Some 2%Z), [0%Q], [1 # 1; 3 # 1; 2 # 1]%Q. do 2 eexists. exists w_eta. do 2 eexists. exists (rkey (0, 1 # 1, w_eta)%Q).
  split; [constructor; [lia|intros b E; injection E as <-; lia|reflexivity]|].
  split; [apply w_sep_ok; reflexivity|]. split; [repeat constructor; intros []|]. split; [apply w_sep_ok; reflexivity|].
  split; [repeat constructor; cbn; intuition congruence|].
  split; [vm_compute; reflexivity|]. split; [vm_compute; reflexivity|]. split; [vm_compute; reflexivity|]. split; [discriminate|].
  split; [left; reflexivity|right; left; vm_compute; reflexivity].
Qed.
Print Assumptions C45_padding_refuted.
