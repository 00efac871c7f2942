(** Property theorem C58: several processes on one root directory. *)
From Coq Require Import String ZArith List Arith Bool Lia Permutation Reals QArith Qreals.
From Verif Require Import Base Config Model Term Equation System Spec_engine Props_Engine Ring Coef Solvers Spec_solve LinSolve Cplx Physics Props_Solve
  Spec_spectral Props_Spectral Utils Mpi Spec_mpi Props_Mpi Keys Props_Petsc Cache Props_Cache Checkpoint Spec_checkpoint Props_Checkpoint Props_Pipeline Conc Spec_conc.
From Verif Require Cache_proofs Mpi_proofs Checkpoint_proofs Interleave_proofs Rootdir_proofs.
Import ListNotations.
Open Scope list_scope.
Open Scope nat_scope.

(** * Alone *)
(** A process that is alone does what Cache.v and Checkpoint.v say. *)
Theorem C58_alone_results : forall P V (key : P -> string) (calc : P -> result V) negative jobs d vs d' acc,
  history key calc negative (Some d) (map Solve jobs) = (map Ok vs, Some d') -> solo (p_rank key calc acc jobs) d = (Ok (acc ++ vs), d').
Proof.
  intros P V key calc negative jobs. induction jobs as [|p r IH]; intros d vs d' acc E; cbn [map history p_rank] in *.
  - injection E as E ->. destruct vs; [|discriminate]. rewrite app_nil_r. reflexivity.
  - rewrite (Interleave_proofs.solo_solve key calc _ negative p). destruct (solve key calc negative (Some d) p) as [[x l] d1] eqn:S.
    destruct (history key calc negative d1 (map Solve r)) as [xs d2] eqn:H. injection E as E ->.
    destruct vs as [|v vs]; [discriminate|]. injection E as -> ->.
    assert (D : exists d1', d1 = Some d1').
    { unfold solve in S. destruct (pre_solve key (Some d) p) as [[w|]|]; [injection S as _ _ <-; eauto| |discriminate S]. destruct (calc p); [|discriminate S]. cbn in S. injection S as _ _ <-. eauto. }
    destruct D as [d1' ->]. rewrite (IH _ _ _ (acc ++ [v]) H), <- app_assoc. reflexivity.
Qed.
Print Assumptions C58_alone_results.
Theorem C58_alone_init : forall T ord (m : model T) g fl e lim d c, same_files d c ->
  let a := solo (p_init ord m g fl e lim (fun p => Ret p)) d in let b := system_init ord m g fl e lim true c in
  fst a = snd b /\ same_files (snd a) (final (fst b) c).
Proof. intros T ord m g fl e lim d c S. exact (Rootdir_proofs.solo_init ord m g fl e lim d c S). Qed.
Print Assumptions C58_alone_init.
Theorem C58_alone_reload : forall T ord (d : dir (obj T)) c, same_files d c ->
  let a := solo (p_reload ord (fun p => Ret p)) d in let b := from_checkpoint ord c in
  fst a = snd b /\ same_files (snd a) (final (fst b) c).
Proof. intros T ord d c S. exact (Rootdir_proofs.solo_reload ord d c S). Qed.
Print Assumptions C58_alone_reload.

(** * Results *)
(** No two processes have a point with the same name: whatever the schedule and
    whoever is killed, a process that is not killed comes to its end with the
    right results, and they are in the directory. *)
Theorem C58_results : forall P V (key : P -> string) (calc : P -> result V) val jobs d,
  (forall js p, In js jobs -> In p js -> calc p = Ok (val p)) ->
  (forall i i' js js' p p', nth_error jobs i = Some js -> nth_error jobs i' = Some js' -> In p js -> In p' js' -> key p = key p' -> i = i' /\ val p = val p') ->
  (forall js p c, In js jobs -> In p js -> fget (key p) d = Some c -> c = Complete (val p)) ->
  forall l i js, nth_error jobs i = Some js -> let s := run l (map (p_rank key calc []) jobs, d) in
  exists q, nth_error (fst s) i = Some q /\ (3 * List.length js <= times i l -> over q) /\
    (over q -> q = Ret (map val js) /\ forall p, In p js -> fget (key p) (snd s) = Some (Complete (val p))).
Proof.
  intros P V key calc val jobs d C N D l i js Hi s.
  assert (AG : forall js js' p p', In js jobs -> In js' jobs -> In p js -> In p' js' -> key p = key p' -> val p = val p').
  { intros a b p p' A B Ip Ip' K. apply In_nth_error in A. apply In_nth_error in B. destruct A as [x A], B as [y B]. exact (proj2 (N x y a b p p' A B Ip Ip' K)). }
  assert (AP : forall i i' js js' p p', nth_error jobs i = Some js -> nth_error jobs i' = Some js' -> In p js -> In p' js' -> key p = key p' -> i = i')
    by (intros x y a b p p' A B Ip Ip' K; exact (proj1 (N x y a b p p' A B Ip Ip' K))).
  assert (S0 : Interleave_proofs.smooth key calc val jobs (map (p_rank key calc []) jobs, d)).
  { apply Interleave_proofs.smooth_start.
    - intros a A p v Ip G. specialize (D a p _ A Ip G). congruence.
    - intros a p A Ip G. specialize (D a p _ A Ip G). discriminate. }
  pose proof (Interleave_proofs.run_invariant _ (Interleave_proofs.smooth_turn key calc val jobs C AG AP) l _ S0) as S. fold s in S. destruct S as (G & R & O).
  assert (E0 : nth_error (map (p_rank key calc []) jobs) i = Some (p_rank key calc [] js)) by (rewrite nth_error_map, Hi; reflexivity).
  destruct (Interleave_proofs.within_run l _ d i _ _ E0 (Interleave_proofs.p_rank_within key calc val js [])) as (q & Eq & W). fold s in Eq.
  exists q. split; [exact Eq|]. split.
  - intros L. apply Interleave_proofs.within_over. replace 0 with (3 * List.length js - times i l) by lia. exact W.
  - intros Oq. destruct (G i q Eq) as (js' & Hi' & ST). assert (js' = js) by congruence. subst js'.
    destruct (Interleave_proofs.stage_over key calc val _ _ _ ST Oq) as [-> PR]. split; [reflexivity|].
    intros p Ip. specialize (PR p Ip). destruct (fget (key p) (snd s)) as [[v|]|] eqn:F; [|exfalso|contradiction].
    + rewrite (R js (nth_error_In _ _ Hi) p v Ip F). reflexivity.
    + destruct (O i js p Hi Ip F) as (v & k & X). rewrite Eq in X. discriminate X.
Qed.
Print Assumptions C58_results.

(** Any overlap, equal names having equal results: a process ends with the right
    results or with EOFError, and the complete files are right. *)
Theorem C58_never_wrong : forall P V (key : P -> string) (calc : P -> result V) val jobs d,
  (forall js p, In js jobs -> In p js -> calc p = Ok (val p)) ->
  (forall js js' p p', In js jobs -> In js' jobs -> In p js -> In p' js' -> key p = key p' -> val p = val p') ->
  (forall js p v, In js jobs -> In p js -> fget (key p) d = Some (Complete v) -> v = val p) ->
  forall l, let s := run l (map (p_rank key calc []) jobs, d) in
  (forall i js, nth_error jobs i = Some js -> exists q, nth_error (fst s) i = Some q /\ (3 * List.length js <= times i l -> over q) /\
     (over q -> q = Ret (map val js) \/ q = Raise EOFError)) /\
  forall js p v, In js jobs -> In p js -> fget (key p) (snd s) = Some (Complete v) -> v = val p.
Proof.
  intros P V key calc val jobs d C AG D l s.
  assert (S0 : Interleave_proofs.going key calc val jobs (map (p_rank key calc []) jobs, d)).
  { apply Interleave_proofs.going_start. intros a A p v Ip G. exact (D a p v A Ip G). }
  pose proof (Interleave_proofs.run_invariant _ (Interleave_proofs.going_turn key calc val jobs C AG) l _ S0) as S. fold s in S. destruct S as (G & R). split.
  - intros i js Hi.
    assert (E0 : nth_error (map (p_rank key calc []) jobs) i = Some (p_rank key calc [] js)) by (rewrite nth_error_map, Hi; reflexivity).
    destruct (Interleave_proofs.within_run l _ d i _ _ E0 (Interleave_proofs.p_rank_within key calc val js [])) as (q & Eq & W). fold s in Eq.
    exists q. split; [exact Eq|]. split.
    + intros L. apply Interleave_proofs.within_over. replace 0 with (3 * List.length js - times i l) by lia. exact W.
    + intros Oq. destruct (G i q Eq) as (js' & Hi' & [ST|ST]); [left|right; exact ST]. assert (js' = js) by congruence. subst js'.
      exact (proj1 (Interleave_proofs.stage_over key calc val _ _ _ ST Oq)).
  - intros js p v A Ip. exact (R js A p v Ip).
Qed.
Print Assumptions C58_never_wrong.

Lemma turn0 : forall V A (p q : prog V A) d, (forall f v k, p <> Close f v k) -> turn (0, false) ([p; q], d) = ([fst (step p d); q], snd (step p d)).
Proof. intros V A p q d N. unfold turn. cbn [fst snd nth_error setn]. destruct (step p d) as [p' d'] eqn:E. destruct p; reflexivity. Qed.
Lemma turn1 : forall V A (p q : prog V A) d, (forall f v k, q <> Close f v k) -> turn (1, false) ([p; q], d) = ([p; fst (step q d)], snd (step q d)).
Proof. intros V A p q d N. unfold turn. cbn [fst snd nth_error setn]. destruct (step q d) as [p' d'] eqn:E. destruct q; reflexivity. Qed.

(** The EOFError is real: for any point, two processes that both want it. *)
Theorem C58_race_refuted : forall P V (key : P -> string) (calc : P -> result V) p v, calc p = Ok v ->
  exists l, nth_error (fst (run l (map (p_rank key calc []) [[p]; [p]], []))) 1 = Some (Raise EOFError).
Proof.
  intros P V key calc p v E. exists [(0, false); (0, false); (1, false); (1, false)].
  cbn [map p_rank run fold_left]. unfold p_solve. rewrite turn0 by discriminate. cbn [step fst snd fget]. rewrite E.
  rewrite turn0 by discriminate. cbn [step fst snd]. rewrite turn1 by discriminate. cbn [step fst snd]. rewrite Cache_proofs.fget_same.
  rewrite turn1 by discriminate. cbn [step fst snd]. rewrite Cache_proofs.fget_same. reflexivity.
Qed.
Print Assumptions C58_race_refuted.

(** * The ranks of greens_function *)
Lemma parts_apart : forall A (ls : list (list A)) i j x, NoDup (List.concat ls) -> In x (nth i ls []) -> In x (nth j ls []) -> i = j.
Proof.
  induction ls as [|a ls IH]; intros i j x N X Y; [destruct i; destruct X|]. cbn [List.concat] in N.
  assert (NA : NoDup (List.concat ls) /\ forall x, In x a -> ~ In x (List.concat ls)).
  { clear -N. induction a as [|y a IHa]; [split; [exact N|intros x []]|]. cbn [app] in N. apply NoDup_cons_iff in N. destruct N as [NI N].
    destruct (IHa N) as [B D]. split; [exact B|]. intros z [<-|Z]; [intros H; apply NI, in_or_app; right; exact H|apply D, Z]. }
  assert (IN : forall j, In x (nth j ls []) -> In x (List.concat ls)).
  { intros k H. apply in_concat. exists (nth k ls []). split; [|exact H]. destruct (nth_in_or_default k ls []) as [Z|Z]; [exact Z|rewrite Z in H; destruct H]. }
  destruct NA as [NC D]. destruct i as [|i], j as [|j]; cbn [nth] in X, Y; [reflexivity|exfalso; exact (D x X (IN j Y))|exfalso; exact (D x Y (IN i X))|].
  f_equal. exact (IH i j x NC X Y).
Qed.

Lemma points_nodup : forall (ks ws : list Q), NoDup ks -> NoDup ws -> NoDup (points ks ws).
Proof.
  intros ks ws NK NW. unfold points. induction NK as [|x l N _ IH]; cbn [list_prod]; [constructor|].
  assert (X : forall l', NoDup l' -> (forall y, In y l' -> ~ In y (map (fun y => (x, y)) ws)) -> NoDup (map (fun y => (x, y)) ws ++ l')).
  { intros l' NL D. clear IH. induction NW as [|y ys Ny _ IHy]; cbn [map app]; [exact NL|]. constructor.
    - intros H. apply in_app_or in H. destruct H as [H|H]; [apply in_map_iff in H; destruct H as [z [E Z]]; congruence|]. apply (D _ H). left. reflexivity.
    - apply IHy. intros z Z H. apply (D z Z). right. exact H. }
  apply X; [exact IH|]. intros [a b] H H'. apply in_prod_iff in H. apply in_map_iff in H'. destruct H' as [z [E Z]]. injection E as <- <-. apply N. apply H.
Qed.

(** The ranks share an empty results directory; the grid has no repeated points
    and no two closer than 1e-10.  Under every schedule in which every rank gets
    its turns, the gathered results are the array. *)
Theorem C58_ranks : forall V (calc : point -> result V) (f : point -> V) ks ws eta n, 1 <= n ->
  separated ks -> separated ws -> NoDup ks -> NoDup ws ->
  (forall k w, In k ks -> In w ws -> calc (k, w, eta) = Ok (f (k, w, eta))) ->
  exists mine, List.length mine = n /\ (forall r, r < n -> jobs_on_rank (Some n) r (points ks ws) = Ok (nth r mine [])) /\
  forall l, (forall r, r < n -> 3 * List.length (nth r mine []) <= times r l) ->
  exists parts, fst (run l (map (p_rank (fun p => rkey (p, eta)) (fun p => calc (p, eta)) []) mine, [])) = map (fun s => Ret s) parts /\
    reshape (flatten parts) (List.length ks) (List.length ws) = Ok (grid_of (fun p => f (p, eta)) ks ws).
Proof.
  intros V calc f ks ws eta n Hn SK SW NK NW CV.
  destruct (C24_distribution _ (points ks ws) n Hn) as (mine & J & L & [C _]). exists mine. split; [exact L|]. split; [exact J|]. intros l HL.
  set (key := fun p : Q * Q => rkey (p, eta)). set (cl := fun p : Q * Q => calc (p, eta)). set (val := fun p : Q * Q => f (p, eta)).
  assert (INP : forall js p, In js mine -> In p js -> In p (points ks ws)) by (intros js p A B; rewrite <- C; apply in_concat; exists js; auto).
  assert (INJ : forall p q, In p (points ks ws) -> In q (points ks ws) -> key p = key q -> p = q).
  { intros [a b] [a' b'] HP HQ E. apply in_prod_iff in HP. apply in_prod_iff in HQ. destruct HP as [A B], HQ as [A' B'].
    pose proof (rkey_distinct _ _ E) as ND. unfold Props_Cache.distinct in ND. cbn [fst snd] in ND.
    destruct (SK a a' A A') as [->|X]; [|exfalso; apply ND; left; exact X]. destruct (SW b b' B B') as [->|X]; [reflexivity|exfalso; apply ND; right; left; exact X]. }
  assert (NTH : forall i (js : list (Q * Q)), nth_error mine i = Some js -> nth i mine [] = js) by (intros i js H; apply nth_error_nth; exact H).
  assert (RES : forall i js, nth_error mine i = Some js -> nth_error (fst (run l (map (p_rank key cl []) mine, []))) i = Some (Ret (map val js))).
  { intros i js Hi. destruct (C58_results _ V key cl val mine [] ) with (l := l) (i := i) (js := js) as (q & Eq & O & R); [| | |exact Hi|].
    - intros a [x y] A B. pose proof (INP a _ A B) as Z. apply in_prod_iff in Z. unfold cl, val. apply CV; apply Z.
    - intros x y a b p p' A B Ip Ip' K. assert (p = p') by (apply INJ; [apply (INP a)|apply (INP b)|]; auto; eapply nth_error_In; eassumption). subst p'.
      split; [|reflexivity]. apply (parts_apart _ mine x y p); [rewrite C; apply points_nodup; assumption| |]; [rewrite (NTH _ _ A)|rewrite (NTH _ _ B)]; assumption.
    - intros a p c _ _ G. discriminate G.
    - etransitivity; [exact Eq|]. f_equal. apply R, O. rewrite <- (NTH _ _ Hi) at 1. apply HL. rewrite <- L. apply nth_error_Some. congruence. }
  exists (map (map val) mine). split.
  - apply nth_ext with (d := Raise EOFError) (d' := Raise EOFError).
    + rewrite Interleave_proofs.run_length. cbn [fst]. rewrite !map_length. reflexivity.
    + intros i Hi. rewrite Interleave_proofs.run_length in Hi. cbn [fst] in Hi. rewrite map_length in Hi.
      destruct (nth_error mine i) as [js|] eqn:E; [|apply nth_error_None in E; lia].
      rewrite (nth_error_nth _ _ _ (RES i js E)). rewrite map_map.
      symmetry. apply nth_error_nth. rewrite nth_error_map, E. reflexivity.
  - rewrite Mpi_proofs.flatten_concat, <- concat_map, C. apply Mpi_proofs.reshape_grid.
Qed.
Print Assumptions C58_ranks.

(** With the solvers: the array of the Green's function of the model. *)
Theorem C58_polaron : forall m ord sp ls, usable m -> (forall k l, Permutation (ord k l) l) -> spsolve_ok (K := CR) sp -> lsolve_ok (F := CF) ls ->
  exists s f, prime_system ord m = Ok s /\ exact_G m f /\
    forall e calc ks ws eta n, e = (fun p : point => phys_env m (Q2R (fst (fst p))) (Q2R (snd (fst p))) (Q2R (snd p))) ->
      calc = (fun p => sparse_solve (e p) sp s) \/ calc = (fun p => dense_solve (F := CF) (e p) ls s) ->
      (0 < eta)%Q -> 1 <= n -> separated ks -> separated ws -> NoDup ks -> NoDup ws ->
      exists mine, List.length mine = n /\ (forall r, r < n -> jobs_on_rank (Some n) r (points ks ws) = Ok (nth r mine [])) /\
      forall l, (forall r, r < n -> 3 * List.length (nth r mine []) <= times r l) ->
      exists parts, fst (run l (map (p_rank (fun p => rkey (p, eta)) (fun p => calc (p, eta)) []) mine, [])) = map (fun s => Ret s) parts /\
        reshape (flatten parts) (List.length ks) (List.length ws) = Ok (grid_of (fun p => f (Q2R (fst p)) (Q2R (snd p)) (Q2R eta)) ks ws).
Proof.
  intros m ord sp ls U P SO LO. destruct (C57_solvers m ord sp ls _ U P SO LO c_mumps_ok) as [s [f [E [X V]]]].
  exists s, f. split; [exact E|]. split; [exact X|]. intros e calc ks ws eta n He Hc Pe Hn SK SW NK NW.
  apply (C58_ranks CR calc (fun p => f (Q2R (fst (fst p))) (Q2R (snd (fst p))) (Q2R (snd p))) ks ws eta n Hn SK SW NK NW).
  intros k w _ _. assert (Pp : (0 < Q2R eta)%R) by (rewrite <- RMicromega.Q2R_0; apply Qlt_Rlt; exact Pe).
  destruct (V (Q2R k) (Q2R w) (Q2R eta) Pp) as [_ [_ [V1 [V2 _]]]]. destruct Hc as [-> | ->]; rewrite He; cbn [fst snd]; [exact V1|exact V2].
Qed.
Print Assumptions C58_polaron.

(** * Files of a System *)
(** Processes that construct the same system (with any limits), as every rank of
    an MPI run does: whatever the schedule and whoever is killed, none fails and
    all get the system.  When all have come to their end the directory is that of
    the system. *)
Theorem C58_construct : forall T ord (m : model T) s lims d, prime_system ord m = Ok s -> closed d -> holds root_names (root_file s) d ->
  forall l, let st := run l (map (p_new_solver ord m) lims, d) in
  (forall i lim, nth_error lims i = Some lim -> exists q, nth_error (fst st) i = Some q /\ (29 <= times i l -> over q) /\ (over q -> q = Ret (py_of lim s))) /\
  holds root_names (root_file s) (snd st) /\
  ((forall i, i < List.length lims -> 29 <= times i l) -> closed (snd st) /\
     forall lim, In lim lims -> fget f_model (snd st) <> None /\ fget f_gen (snd st) <> None /\ fget f_args (snd st) <> None /\
       ((Spec_checkpoint.count (s_eqs s) <= lim)%Z -> fget f_eqs (snd st) <> None)).
Proof.
  intros T ord m s lims d E C H l st. rewrite Checkpoint_proofs.count_eq. destruct (Checkpoint_proofs.prime_parts ord m s E) as [_ [_ [_ [_ [_ SM]]]]]. subst m.
  assert (NT : forall i q, nth_error (map (p_new_solver ord (s_model s)) lims) i = Some q -> exists lim, nth_error lims i = Some lim /\ q = p_new_solver ord (s_model s) lim).
  { intros i q X. rewrite nth_error_map in X. destruct (nth_error lims i) as [lim|]; [|discriminate]. injection X as <-. eauto. }
  assert (TN : forall i lim, nth_error lims i = Some lim -> nth_error (map (p_new_solver ord (s_model s)) lims) i = Some (p_new_solver ord (s_model s) lim)).
  { intros i lim X. rewrite nth_error_map, X. reflexivity. }
  pose (a := fun i => py_of (nth i lims 0%Z) s).
  assert (W0 : Interleave_proofs.writers (root_file s) a (map (p_new_solver ord (s_model s)) lims, d)).
  { split; cbn [fst snd].
    - intros i q X. destruct (NT i q X) as (lim & Y & ->). unfold a. rewrite (nth_error_nth _ _ 0%Z Y). apply Rootdir_proofs.new_writer, E.
    - intros f X. exfalso. exact (C f X). }
  pose proof (Interleave_proofs.writers_run (root_file s) a l _ W0) as W. fold st in W.
  assert (HH : holds root_names (root_file s) (snd st)) by (exact (Interleave_proofs.holds_run (root_file s) a root_names l _ W0 H)).
  assert (FIN : forall i lim, nth_error lims i = Some lim -> exists q, nth_error (fst st) i = Some q /\ (29 <= times i l -> over q) /\ (over q -> q = Ret (py_of lim s))).
  { intros i lim X. destruct (Interleave_proofs.within_run l _ d i _ _ (TN i lim X) (Rootdir_proofs.within_new ord (s_model s) lim)) as (q & Eq & Wq). fold st in Eq.
    exists q. split; [exact Eq|]. split.
    - intros L. apply Interleave_proofs.within_over. replace 0 with (29 - times i l) by lia. exact Wq.
    - intros O. pose proof (Interleave_proofs.writer_over (root_file s) _ _ (proj1 W i q Eq) O) as ->. unfold a. rewrite (nth_error_nth _ _ 0%Z X). reflexivity. }
  split; [exact FIN|]. split; [exact HH|]. intros ALL.
  assert (OV : forall i q, nth_error (fst st) i = Some q -> over q).
  { intros i q X. assert (I : i < List.length lims).
    { assert (X' : nth_error (fst st) i <> None) by congruence. apply nth_error_Some in X'. rename X into X0. rename X' into X. unfold st in X. rewrite Interleave_proofs.run_length in X. cbn [fst] in X. rewrite map_length in X. exact X. }
    destruct (nth_error lims i) as [lim|] eqn:Y; [|apply nth_error_None in Y; lia]. destruct (FIN i lim Y) as (q' & Eq & O & _).
    assert (q' = q) by congruence. subst q'. apply O, ALL, I. }
  split; [exact (Interleave_proofs.writers_closed (root_file s) a st W OV)|].
  intros lim IL. apply In_nth_error in IL. destruct IL as [i IL].
  assert (MADE : forall f, (f = f_model \/ f = f_gen \/ f = f_args \/ (f = f_eqs /\ too_many lim (Some (s_eqs s)) = false)) -> fget f (snd st) <> None).
  { intros f Hf. destruct (Interleave_proofs.will_run f l _ d i _ (TN i lim IL) (or_introl (Rootdir_proofs.will_new ord s lim f E Hf))) as (q & Eq & [X|X]); [|exact X].
    exfalso. exact (Interleave_proofs.will_over f q X (OV i q Eq)). }
  repeat split; try (apply MADE; auto; fail). intros B. apply MADE. right. right. right. split; [reflexivity|]. cbn [too_many]. apply Z.ltb_ge. exact B.
Qed.
Print Assumptions C58_construct.

(** Constructing and reloading processes together: construction never fails; a
    reload gives the system (its f_arg_list may be missing) or one of four
    errors; complete files are always right. *)
Definition starts {T} ord (m : model T) (p : prg T) : Prop := p = p_root_solver ord \/ exists lim, p = p_new_solver ord m lim.
Theorem C58_mixed : forall T ord (m : model T) s ps d, prime_system ord m = Ok s -> storable m -> settled ord -> holds root_names (root_file s) d ->
  Forall (starts ord m) ps -> forall l, let st := run l (ps, d) in holds root_names (root_file s) (snd st) /\
  forall i p, nth_error ps i = Some p -> exists q, nth_error (fst st) i = Some q /\ (37 <= times i l -> over q) /\
    (forall x, q = Raise x -> p = p_root_solver ord /\ (x = SystemExit \/ x = ValueError \/ x = EOFError \/ x = AttributeError)) /\
    (forall r, q = Ret r -> same_attributes m (py_model r) /\ py_gen r = s_gen s /\ py_eqs r = s_eqs s /\
       (py_fargs r = Some (s_fargs s) \/ (py_fargs r = None /\ p = p_root_solver ord))).
Proof.
  intros T ord m s ps d E ST SE H A l st. destruct (Checkpoint_proofs.prime_parts ord m s E) as [_ [_ [_ [_ [_ SM]]]]]. subst m.
  set (fresh := fun p : prg T => exists lim, p = p_new_solver ord (s_model s) lim).
  pose (R := fun (i : nat) (r : pysystem T) => same_attributes (s_model s) (py_model r) /\ py_gen r = s_gen s /\ py_eqs r = s_eqs s /\
       (py_fargs r = Some (s_fargs s) \/ (py_fargs r = None /\ nth_error ps i = Some (p_root_solver ord)))).
  pose (X := fun (i : nat) (x : exn) => nth_error ps i = Some (p_root_solver ord) /\ (x = SystemExit \/ x = ValueError \/ x = EOFError \/ x = AttributeError)).
  assert (W0 : forall i p, nth_error ps i = Some p -> Interleave_proofs.within 37 p).
  { intros i p Hp. rewrite Forall_forall in A. destruct (A p (nth_error_In _ _ Hp)) as [->|[lim ->]]; [apply Rootdir_proofs.within_root|].
    apply (Interleave_proofs.within_mono 29); [apply Rootdir_proofs.within_new|lia]. }
  assert (S0 : Rootdir_proofs.all_safe root_names (root_file s) R X (ps, d)).
  { split; [|exact H]. cbn [fst snd]. intros i p Hp. exists []. split; [intros f []|].
    rewrite Forall_forall in A. destruct (A p (nth_error_In _ _ Hp)) as [->|[lim ->]].
    - pose proof (Rootdir_proofs.root_safe ord s E ST SE) as Y.
      assert (MONO : forall (R1 R2 : pysystem T -> Prop) (E1 E2 : exn -> Prop) K p, (forall r, R1 r -> R2 r) -> (forall x, E1 x -> E2 x) ->
         Rootdir_proofs.safe root_names (root_file s) R1 E1 K p -> Rootdir_proofs.safe root_names (root_file s) R2 E2 K p).
      { clear. intros R1 R2 E1 E2 K p HR HE S. induction S; constructor; auto. }
      apply (MONO _ _ _ _ _ _) with (3 := Y).
      + intros r (A1 & A2 & A3 & A4). split; [exact A1|]. split; [exact A2|]. split; [exact A3|]. destruct A4 as [A4|A4]; [right|left]; auto.
      + intros x Hx. split; [exact Hp|exact Hx].
    - apply (Rootdir_proofs.writer_safe root_names (root_file s)) with (a := py_of lim s); [|apply Rootdir_proofs.new_writer, E].
      split; [constructor; reflexivity|]. cbn. auto. }
  destruct (Rootdir_proofs.all_safe_run root_names (root_file s) R X l _ S0) as [S1 H1]. fold st in S1, H1. split; [exact H1|].
  intros i p Hp. destruct (Interleave_proofs.within_run l ps d i p 37 Hp (W0 i p Hp)) as (q & Eq & Wq). fold st in Eq.
  exists q. split; [exact Eq|]. split; [intros L; apply Interleave_proofs.within_over; replace 0 with (37 - times i l) by lia; exact Wq|].
  destruct (S1 i q Eq) as (K & _ & SQ). split.
  - intros x ->. inversion SQ; subst. destruct H3 as [Y Z]. split; [congruence|exact Z].
  - intros r ->. inversion SQ; subst. destruct H3 as (Y1 & Y2 & Y3 & Y4). split; [exact Y1|]. split; [exact Y2|]. split; [exact Y3|].
    destruct Y4 as [Y4|[Y4 Y5]]; [left; exact Y4|right]. split; [exact Y4|congruence].
Qed.
Print Assumptions C58_mixed.

(** Reloading processes disturb each other although neither changes anything:
    from_checkpoint rewrites model.json.  For every stored system, two processes
    of which the second starts while the first is at that point. *)
Theorem C58_reload_refuted : forall T ord (m : model T) s d, prime_system ord m = Ok s -> storable m ->
  (forall f, In f root_names -> fget f d = Some (Complete (root_file s f))) ->
  exists l, nth_error (fst (run l ([p_root_solver ord; p_root_solver ord], d))) 1 = Some (Raise ValueError).
Proof.
  intros T ord m s d E ST H. destruct (Checkpoint_proofs.prime_parts ord m s E) as [_ [_ [_ [_ [_ SM]]]]]. subst m.
  pose proof (H f_model ltac:(cbn; auto)) as H1. pose proof (H f_gen ltac:(cbn; auto)) as H2. pose proof (H f_args ltac:(cbn; auto)) as H3. pose proof (H f_eqs ltac:(cbn; auto)) as H4.
  exists (repeat (0, false) 9 ++ [(1, false); (1, false)]). cbn [repeat app run fold_left].
  unfold p_root_solver at 1, p_reload at 1. rewrite turn0 by discriminate. cbn [step fst snd]. rewrite H1.
  rewrite turn0 by discriminate. cbn [step fst snd]. rewrite H1. change (root_file s f_model) with (OJson (json_of_model (s_model s))). cbn match.
  rewrite (Checkpoint_proofs.model_roundtrip _ ST). unfold p_opt at 1.
  rewrite turn0 by discriminate. cbn [step fst snd]. rewrite H2. rewrite turn0 by discriminate. cbn [step fst snd]. rewrite H2.
  change (root_file s f_gen) with (OEqs (s_gen s)). cbn [as_eqs]. unfold p_opt at 1.
  rewrite turn0 by discriminate. cbn [step fst snd]. rewrite H3. rewrite turn0 by discriminate. cbn [step fst snd]. rewrite H3.
  change (root_file s f_args) with (@OArgs T (s_fargs s)). cbn [as_args]. unfold p_opt at 1.
  rewrite turn0 by discriminate. cbn [step fst snd]. rewrite H4. rewrite turn0 by discriminate. cbn [step fst snd]. rewrite H4.
  change (root_file s f_eqs) with (OEqs (s_eqs s)). cbn [as_eqs]. unfold p_init at 1, p_save at 1.
  rewrite turn0 by discriminate. cbn [step fst snd].
  unfold p_root_solver, p_reload. rewrite turn1 by discriminate. cbn [step fst snd]. rewrite Cache_proofs.fget_same.
  rewrite turn1 by discriminate. cbn [step fst snd]. rewrite Cache_proofs.fget_same. reflexivity.
Qed.
Print Assumptions C58_reload_refuted.

(** Two processes with two points each, a schedule in which the second runs
    while the first is writing; and a grid on two ranks. *)
Example C58_nonvacuous :
  (let jobs := [["a"; "b"]; ["c"; "d"]]%string in let key (x : string) := x in let calc (x : string) := Ok (String.length x) in
   let l := flat_map (fun i => [(i, true); (1 - i, true)]) (repeat 0 6) in
   run l (map (p_rank key calc []) jobs, [("c"%string, Complete 1)]) =
     ([Ret [1; 1]; Ret [1; 1]], [("c", Complete 1); ("a", Complete 1); ("d", Complete 1); ("b", Complete 1)]%string) /\
   fst (run (firstn 4 l) (map (p_rank key calc []) jobs, [("c"%string, Complete 1)])) <> [Ret [1; 1]; Ret [1; 1]]) /\
  (separated [0; 1]%Q /\ separated [1 # 4; 1 # 3; 1 # 2]%Q /\ NoDup [0; 1]%Q /\ NoDup [1 # 4; 1 # 3; 1 # 2]%Q) /\
  (exists s, prime_system id_ord h_model = Ok s /\ storable h_model /\ closed (@nil (string * content (obj Z))) /\ holds root_names (root_file s) [] /\
     (Spec_checkpoint.count (s_eqs s) <= 10)%Z).
Proof.
  split; [split; [reflexivity|discriminate]|]. split.
  - split; [|split; [|split]].
    + intros x y [<-|[<-|[]]] [<-|[<-|[]]]; (left; reflexivity) || (right; reflexivity).
    + intros x y [<-|[<-|[<-|[]]]] [<-|[<-|[<-|[]]]]; (left; reflexivity) || (right; reflexivity).
    + repeat constructor; cbn; intuition discriminate.
    + repeat constructor; cbn; intuition discriminate.
  - destruct (sys_ex id_ord h_model (fun s => (Spec_checkpoint.count (s_eqs s) <=? 10)%Z)) as [s [E H]]; [vm_compute; reflexivity|].
    exists s. split; [exact E|]. split; [exact h_storable|]. split; [intros f; discriminate|]. split; [intros f _ v; discriminate|]. apply Z.leb_le, H.
Qed.
