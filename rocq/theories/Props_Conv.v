(** C55: what is reported about the accuracy of a solution. *)
From Coq Require Import String ZArith Reals List Bool Lia Lra PeanoNat.
From Verif Require Import Base Ring Cplx Solvers Spec_solve Petsc Cache Logger Mpi Conv Spec_conv Conv_proofs.
Import ListNotations.
Open Scope R_scope.

(** The point is computed: the meta information holds the exit code, the memory
    and the excess of the preconditioned residual; the value is the last entry;
    rank 0 of the brigade stores it whatever the checks say. *)
Theorem C55_reported : forall rank brank key n tr b rtol o d P, not_stored key d -> (0 < n)%nat ->
  (forall p, In p tr -> (snd (fst p) < n)%nat) -> acts_as n (o_apply o) P ->
  exists logs d', solve_point rank brank key n tr (some b) rtol o d =
    (Ok (Some (P b (n - 1)%nat), Some (mkMeta (o_code o) (in_GB (o_mem o)) (Some (euclid n (P (diff b (@mv CR tr (P b)))) - rtol * euclid n (P b))))), logs, d') /\
    d' = (if Nat.eqb brank 0 then option_map (fput key (Complete (Some (P b (n - 1)%nat)))) d else d) /\
    (rank = O -> brank = O ->
      (existsb alarming logs = false <->
       euclid n (P (diff b (@mv CR tr (P b)))) <= rtol * euclid n (P b) /\ o_code o = 0%Z /\ Im (P b (n - 1)%nat) <= 0)).
Proof.
  intros rank brank key n tr b rtol o d P NS Hn B A.
  assert (X : forall i, (i < n)%nat -> o_apply o (some b) i = Some (P b i)) by (apply A; reflexivity).
  assert (PS : pre_solve (fun _ : unit => key) d tt = Ok None).
  { unfold pre_solve, not_stored in *. destruct d as [f|]; [rewrite NS|]; reflexivity. }
  unfold solve_point. rewrite PS. rewrite (excess_value n tr (o_apply o) P b (P b) _ rtol B A X). rewrite (X (n - 1)%nat) by lia.
  set (ex := euclid n (P (diff b (@mv CR tr (P b)))) - rtol * euclid n (P b)).
  destruct (Nat.eqb brank 0) eqn:EB.
  - unfold post_solve. eexists. eexists. split; [reflexivity|]. split; [destruct d; reflexivity|].
    intros -> _. unfold check_conv_manual, check_conv, check_mem_use. cbn [Nat.eqb app].
    assert (EX : positive (Some ex) = false <-> euclid n (P (diff b (@mv CR tr (P b)))) <= rtol * euclid n (P b)).
    { unfold positive. destruct (Rlt_dec 0 ex) as [L|L]; unfold ex in *; split; intros Z; try discriminate; try reflexivity; lra. }
    assert (NG : negative (Some (P b (n - 1)%nat)) = false <-> Im (P b (n - 1)%nat) <= 0).
    { unfold negative. pose proof PI_RGT_0 as PP. set (g := Im (P b (n - 1)%nat)). assert (EQ : - g / PI * PI = - g) by (field; lra).
      destruct (Rlt_dec (- g / PI) 0) as [L|L]; split; intros Z; try discriminate; try reflexivity.
      - exfalso. assert (- g / PI * PI < 0) by nra. lra.
      - assert (0 <= - g / PI * PI) by nra. lra. }
    rewrite <- EX, <- NG.
    destruct (positive (Some ex)), (negative (Some (P b (n - 1)%nat))), (Z.eqb_spec (o_code o) 0), (Z.ltb_spec (o_code o) 0); cbn;
      split; try (intros; discriminate); try (intros [? [? ?]]; try discriminate; try contradiction; try lia); intros; repeat split; try reflexivity; try assumption; lia.
  - eexists. eexists. split; [reflexivity|]. split; [reflexivity|]. intros _ ->. discriminate.
Qed.
Print Assumptions C55_reported.

(** Which alarm: a missed tolerance and a positive exit code are warnings, a
    negative exit code and a negative spectral function are errors. *)
Theorem C55_levels : forall brank key n tr b rtol o d P r logs d', not_stored key d -> (0 < n)%nat ->
  (forall p, In p tr -> (snd (fst p) < n)%nat) -> acts_as n (o_apply o) P ->
  solve_point 0 brank key n tr (some b) rtol o d = (r, logs, d') ->
  (In Warning logs <-> rtol * euclid n (P b) < euclid n (P (diff b (@mv CR tr (P b)))) \/ (0 < o_code o)%Z) /\
  (In Error logs <-> (o_code o < 0)%Z \/ (brank = O /\ 0 < Im (P b (n - 1)%nat))) /\
  forall l, In l logs -> l = Debug \/ l = Warning \/ l = Error.
Proof.
  intros brank key n tr b rtol o d P r logs d' NS Hn B A E.
  assert (X : forall i, (i < n)%nat -> o_apply o (some b) i = Some (P b i)) by (apply A; reflexivity).
  assert (PS : pre_solve (fun _ : unit => key) d tt = Ok None).
  { unfold pre_solve, not_stored in *. destruct d as [f|]; [rewrite NS|]; reflexivity. }
  unfold solve_point in E. rewrite PS in E. rewrite (excess_value n tr (o_apply o) P b (P b) _ rtol B A X) in E. rewrite (X (n - 1)%nat) in E by lia.
  set (ex := euclid n (P (diff b (@mv CR tr (P b)))) - rtol * euclid n (P b)) in *.
  assert (EX : positive (Some ex) = true <-> rtol * euclid n (P b) < euclid n (P (diff b (@mv CR tr (P b))))).
  { unfold positive. destruct (Rlt_dec 0 ex) as [L|L]; unfold ex in *; split; intros Z; try discriminate; try reflexivity; lra. }
  assert (NG : negative (Some (P b (n - 1)%nat)) = true <-> 0 < Im (P b (n - 1)%nat)).
  { unfold negative. pose proof PI_RGT_0 as PP. set (g := Im (P b (n - 1)%nat)). assert (EQ : - g / PI * PI = - g) by (field; lra).
    destruct (Rlt_dec (- g / PI) 0) as [L|L]; split; intros Z; try discriminate; try reflexivity.
    - assert (- g / PI * PI < 0) by nra. lra.
    - exfalso. assert (0 <= - g / PI * PI) by nra. lra. }
  assert (EL : logs = [if positive (Some ex) then Warning else Debug] ++ [if (o_code o =? 0)%Z then Debug else if (o_code o <? 0)%Z then Error else Warning] ++ [Debug; Debug] ++
    if Nat.eqb brank 0 && negative (Some (P b (n - 1)%nat)) then [Error] else []).
  { destruct (Nat.eqb brank 0); unfold post_solve in E; cbn [andb]; apply (f_equal (fun q => snd (fst q))) in E; cbn [fst snd] in E; rewrite <- E; unfold check_conv_manual, check_conv, check_mem_use; cbn [Nat.eqb app]; reflexivity. }
  rewrite <- EX, <- NG, <- (Nat.eqb_eq brank 0). rewrite EL. clear.
  destruct (positive (Some ex)), (negative (Some (P b (n - 1)%nat))), (Nat.eqb brank 0), (Z.eqb_spec (o_code o) 0), (Z.ltb_spec (o_code o) 0); cbn;
    (split; [|split; [|intros l HL; intuition congruence]]); intuition (try discriminate; try lia).
Qed.
Print Assumptions C55_levels.

(** A stored point: its meta information is empty and nothing is logged. *)
Theorem C55_cached : forall rank brank key n tr b rtol o f v, fget key f = Some (Complete v) ->
  solve_point rank brank key n tr b rtol o (Some f) = (Ok (v, None), [], Some f).
Proof. intros rank brank key n tr b rtol o f v H. unfold solve_point, pre_solve. rewrite H. reflexivity. Qed.
Print Assumptions C55_cached.

(** A check that passes bounds the error of the solution, and of the Green's
    function, provided the factorization it uses is accurate to [delta] < 1. *)
Theorem C55_accuracy : forall n tr f P delta b xs rtol e, (0 < n)%nat -> (forall p, In p tr -> (snd (fst p) < n)%nat) ->
  acts_as n f P -> inverts n tr delta P -> delta < 1 -> 0 <= rtol -> (forall i, (i < n)%nat -> @mv CR tr xs i = b i) ->
  tol_excess f n tr (some b) (f (some b)) rtol = Some e -> e <= 0 ->
  euclid n (diff (P b) xs) <= rtol * (1 + delta) / (1 - delta) * euclid n xs /\
  Cabs (Csub (P b (n - 1)%nat) (xs (n - 1)%nat)) <= rtol * (1 + delta) / (1 - delta) * euclid n xs.
Proof.
  intros n tr f P delta b xs rtol e Hn B A V D RT S E L.
  assert (X : forall i, (i < n)%nat -> f (some b) i = Some (P b i)) by (apply A; reflexivity).
  rewrite (excess_value n tr f P b (P b) _ rtol B A X) in E. injection E as E. rewrite <- E in L.
  pose proof (accuracy n tr P delta b (P b) xs rtol V D RT S L) as H.
  assert (M : euclid n (diff (P b) xs) <= rtol * (1 + delta) / (1 - delta) * euclid n xs).
  { apply Rmult_le_reg_l with (1 - delta); [lra|]. replace ((1 - delta) * (rtol * (1 + delta) / (1 - delta) * euclid n xs)) with (rtol * (1 + delta) * euclid n xs) by (field; lra). exact H. }
  split; [exact M|]. pose proof (euclid_entry n (diff (P b) xs) (n - 1)%nat ltac:(lia)) as Z. unfold diff at 1 in Z. lra.
Qed.
Print Assumptions C55_accuracy.

(** An exact factorization gives the exact solution and passes the check: no
    false alarm. *)
Theorem C55_exact : forall n tr f P b xs rtol, (forall p, In p tr -> (snd (fst p) < n)%nat) ->
  acts_as n f P -> inverts n tr 0 P -> 0 <= rtol -> (forall i, (i < n)%nat -> @mv CR tr xs i = b i) ->
  (forall i, (i < n)%nat -> f (some b) i = Some (xs i)) /\
  tol_excess f n tr (some b) (f (some b)) rtol = Some (- (rtol * euclid n xs)) /\
  forall rank, existsb alarming (check_conv_manual rank (tol_excess f n tr (some b) (f (some b)) rtol)) = false.
Proof.
  intros n tr f P b xs rtol B A V RT S. destruct (exact_excess n tr P b xs rtol V S) as [PB EX]. specialize (EX B).
  assert (X : forall i, (i < n)%nat -> f (some b) i = Some (P b i)) by (apply A; reflexivity).
  rewrite (excess_value n tr f P b (P b) _ rtol B A X). rewrite EX.
  split; [intros i Hi; rewrite (X i Hi), (PB i Hi); reflexivity|]. split; [reflexivity|].
  intros rank. unfold check_conv_manual, positive. destruct (Nat.eqb rank 0); [|reflexivity].
  pose proof (euclid_nonneg n xs) as NN. assert (0 <= rtol * euclid n xs) by (apply Rmult_le_pos; assumption).
  destruct (Rlt_dec 0 (- (rtol * euclid n xs))); [lra|reflexivity].
Qed.
Print Assumptions C55_exact.

(** Only the process of global rank 0 reports: a brigade without it never warns
    about exit codes and residuals. *)
Theorem C55_silent : forall rank brank key n tr b rtol o d v mt logs d', rank <> O ->
  solve_point rank brank key n tr b rtol o d = (Ok (v, mt), logs, d') -> negative v = false -> existsb alarming logs = false.
Proof.
  intros rank brank key n tr b rtol o d v mt logs d' HR E HN. unfold solve_point in E.
  destruct (pre_solve (fun _ : unit => key) d tt) as [[g|]|x]; [injection E as <- <- <- <-; reflexivity| |discriminate].
  unfold check_conv_manual, check_conv, check_mem_use in E. destruct (Nat.eqb_spec rank 0) as [H|H]; [contradiction|]. cbn [app] in E.
  destruct (Nat.eqb brank 0); cbn [post_solve] in E; injection E as <- _ <- _; [rewrite HN|]; reflexivity.
Qed.
Print Assumptions C55_silent.

(** * Where the reports mislead *)
Lemma acts_scale : forall c n, acts_as n (fun v i => option_map (Cmul c) (v i)) (fun x i => Cmul c (x i)).
Proof. intros c n v x H i Hi. cbn beta. rewrite (H i Hi). reflexivity. Qed.

(** the 1x1 system 2 x = 2 *)
Definition two : C := (2, 0).
Definition tr1 : list (@triplet CR) := [((0, 0)%nat, two)].
Definition b1 : nat -> C := fun _ => two.
(** A factorization that multiplies by [c]. *)
Definition scale (c : C) (code : Z) : outcome := mkOut (fun v i => option_map (Cmul c) (v i)) code 1024.

Lemma tr1_cols : forall p, In p tr1 -> (snd (fst p) < 1)%nat.
Proof. intros p [<-|[]]. cbn. lia. Qed.

Lemma sqrt_of_square : forall x, 0 <= x -> sqrt (0 + x * x) = x.
Proof. intros x H. rewrite Rplus_0_l. apply sqrt_square. exact H. Qed.

Lemma euclid_one : forall x : nat -> C, euclid 1 x = Cabs (x O).
Proof. intros x. unfold euclid, Cabs, sumsq. f_equal. ring. Qed.
Lemma Cabs_real : forall r, Cabs (r, 0) = Rabs r.
Proof. intros r. unfold Cabs, Cnorm2, Re, Im. cbn [fst snd]. replace (r * r + 0 * 0) with (Rsqr r) by (unfold Rsqr; ring). apply sqrt_Rsqr_abs. Qed.

Lemma scale_excess : forall c : R, euclid 1 (fun i => Cmul (c, 0) (diff b1 (@mv CR tr1 (fun i => Cmul (c, 0) (b1 i))) i)) = Rabs (c * (2 - 4 * c)) /\
  euclid 1 (fun i => Cmul (c, 0) (b1 i)) = Rabs (2 * c).
Proof.
  intros c. rewrite !euclid_one. rewrite <- !Cabs_real. split; f_equal; apply Ceq; unfold diff, b1, mv, tr1, two; cbn; ring.
Qed.

(** In a world of four processes in brigades of two, nobody in the second brigade
    mentions a MUMPS error and a residual far above the tolerance. *)
Theorem C55_brigade_refuted : exists o e, acts_as 1 (o_apply o) (fun x i => Cmul (1, 0) (x i)) /\
  tol_excess (o_apply o) 1 tr1 (some b1) (o_apply o (some b1)) (/ 10) = Some e /\ 0 < e /\ (o_code o < 0)%Z /\
  members 4 (Some 2%Z) 1 = [2; 3]%nat /\
  forall r, In r (members 4 (Some 2%Z) 1) -> exists v mt logs d',
    solve_point r (brigade_rank 4 (Some 2%Z) r) "k" 1 tr1 (some b1) (/ 10) o (Some []) = (Ok (v, mt), logs, d') /\ existsb alarming logs = false.
Proof.
  exists (scale (1, 0) (-9)). eexists. split; [apply acts_scale|].
  assert (X : forall i, (i < 1)%nat -> o_apply (scale (1, 0) (-9)) (some b1) i = Some (Cmul (1, 0) (b1 i))) by (intros; reflexivity).
  split; [rewrite (excess_value 1 tr1 (o_apply (scale (1, 0) (-9))) (fun x i => Cmul (1, 0) (x i)) b1 _ _ (/ 10) tr1_cols (acts_scale _ _) X); destruct (scale_excess 1) as [-> ->]; reflexivity|].
  replace (1 * (2 - 4 * 1)) with (-2) by ring. replace (2 * 1) with 2 by ring. rewrite Rabs_left, Rabs_right by lra.
  split; [lra|]. split; [cbn; lia|]. split; [reflexivity|].
  intros r Hr. destruct (C55_reported r (brigade_rank 4 (Some 2%Z) r) "k" 1 tr1 b1 (/ 10) (scale (1, 0) (-9)) (Some []) _ eq_refl ltac:(lia) tr1_cols (acts_scale _ _)) as [logs [d' [E _]]].
  eexists. eexists. exists logs, d'. split; [exact E|]. refine (C55_silent _ _ _ _ _ _ _ _ _ _ _ _ _ _ E _).
  - destruct Hr as [<-|[<-|[]]]; discriminate.
  - cbn. destruct (Rlt_dec _ _) as [L|L]; [exfalso|reflexivity]. unfold Rdiv in L. replace (- (1 * 0 + 0 * 2) * / PI) with 0 in L by ring. lra.
Qed.
Print Assumptions C55_brigade_refuted.

(** A solution MUMPS could not compute is returned, stored and later served from
    the directory without any trace of the failure. *)
Theorem C55_stored_refuted : exists o v mt logs f, (o_code o < 0)%Z /\
  solve_point 0 0 "k" 1 tr1 (some b1) (/ 10) o (Some []) = (Ok (v, Some mt), logs, Some f) /\ exit_code mt = o_code o /\
  (forall i, v = Some i -> Cmul two i <> two) /\
  forall o', solve_point 0 0 "k" 1 tr1 (some b1) (/ 10) o' (Some f) = (Ok (v, None), [], Some f).
Proof.
  exists (scale (1, 0) (-9)).
  destruct (C55_reported 0 0 "k" 1 tr1 b1 (/ 10) (scale (1, 0) (-9)) (Some []) _ eq_refl ltac:(lia) tr1_cols (acts_scale _ _)) as [logs [d' [E [D _]]]].
  eexists. eexists. exists logs. cbn [Nat.eqb option_map fput] in D.
  exists [("k"%string, Complete (Some (Cmul (1, 0) (b1 (1 - 1)%nat))))]. split; [cbn; lia|]. split; [rewrite E, D; reflexivity|]. split; [reflexivity|].
  split.
  - intros i H. injection H as <-. intros F. apply (f_equal Re) in F. unfold Cmul, two, b1, Re, Im in F. cbn in F. lra.
  - intros o'. apply C55_cached. reflexivity.
Qed.
Print Assumptions C55_stored_refuted.

(** The residual is preconditioned with the factorization under test: one that
    maps everything to zero gives the solution 0, which passes. *)
Theorem C55_zero_refuted : exists f, acts_as 1 f (fun _ _ => C0) /\ tol_excess f 1 tr1 (some b1) (f (some b1)) (/ 10) = Some 0 /\
  f (some b1) O = Some C0 /\ @mv CR tr1 (fun _ => C0) O <> b1 O /\
  check_conv_manual 0 (tol_excess f 1 tr1 (some b1) (f (some b1)) (/ 10)) = [Debug].
Proof.
  set (f := fun (v : vec) (i : nat) => option_map (fun _ => C0) (v i)).
  assert (A : acts_as 1 f (fun _ _ => C0)) by (intros v x H i Hi; unfold f; rewrite (H i Hi); reflexivity).
  assert (E : tol_excess f 1 tr1 (some b1) (f (some b1)) (/ 10) = Some 0).
  { rewrite (excess_value 1 tr1 f (fun _ _ => C0) b1 (fun _ => C0) _ (/ 10) tr1_cols A); [|intros; reflexivity].
    f_equal. rewrite !euclid_one. unfold C0. rewrite Cabs_real, Rabs_R0. ring. }
  exists f. split; [exact A|]. split; [exact E|]. split; [reflexivity|]. split.
  - intros F. apply (f_equal Re) in F. unfold mv, tr1, b1, two, Re in F. cbn in F. lra.
  - rewrite E. unfold check_conv_manual, positive. cbn [Nat.eqb]. destruct (Rlt_dec 0 0) as [L|L]; [lra|reflexivity].
Qed.
Print Assumptions C55_zero_refuted.

(** A solution that is nan passes as well. *)
Theorem C55_nan_refuted : exists f, f (some b1) O = None /\ tol_excess f 1 tr1 (some b1) (f (some b1)) (/ 10) = None /\
  check_conv_manual 0 (tol_excess f 1 tr1 (some b1) (f (some b1)) (/ 10)) = [Debug].
Proof. exists (fun _ _ => None). repeat split. Qed.
Print Assumptions C55_nan_refuted.

(** The figures "in GB" are not: the constant is not 2^30. *)
Theorem C55_GB_refuted : forall mb, mb <> 0%Z -> in_GB mb <> IZR mb * 1000000 / IZR (2 ^ 30).
Proof.
  intros mb H E. unfold in_GB, BYTES_TO_GB in E. apply not_0_IZR in H. change (2 ^ 30)%Z with 1073741824%Z in E.
  apply (f_equal (fun r => r * (1073741274 * 1073741824))) in E.
  replace (IZR mb * 1000000 / 1073741274 * (1073741274 * 1073741824)) with (IZR mb * 1000000 * 1073741824) in E by field.
  replace (IZR mb * 1000000 / 1073741824 * (1073741274 * 1073741824)) with (IZR mb * 1000000 * 1073741274) in E by field.
  assert (IZR mb * 550 = 0) by lra. apply H. lra.
Qed.
Print Assumptions C55_GB_refuted.
(** But they are right to six digits. *)
Theorem C55_memory : forall mb, (0 <= mb)%Z ->
  IZR mb * 1000000 / IZR (2 ^ 30) <= in_GB mb <= (1 + 6 / 10000000) * (IZR mb * 1000000 / IZR (2 ^ 30)).
Proof.
  intros mb H. apply IZR_le in H. unfold in_GB, BYTES_TO_GB. change (2 ^ 30)%Z with 1073741824%Z. split; lra.
Qed.
Print Assumptions C55_memory.

(** The hypotheses are met: the exact factorization of 2 x = 2. *)
Example C55_nonvacuous : exists f P xs, acts_as 1 f P /\ inverts 1 tr1 0 P /\ (forall i, (i < 1)%nat -> @mv CR tr1 xs i = b1 i) /\
  f (some b1) O = Some C1 /\ tol_excess f 1 tr1 (some b1) (f (some b1)) (/ 10) = Some (- (/ 10)).
Proof.
  exists (fun v i => option_map (Cmul (/ 2, 0)) (v i)), (fun x i => Cmul (/ 2, 0) (x i)), (fun _ => C1).
  assert (V : inverts 1 tr1 0 (fun x i => Cmul (/ 2, 0) (x i))).
  { split; [intros x y H i Hi; rewrite (H i Hi); reflexivity|]. intros y. rewrite Rmult_0_l, euclid_one.
    right. replace (diff (fun i => Cmul (/ 2, 0) (@mv CR tr1 y i)) y 0%nat) with (0, 0)%R; [rewrite Cabs_real; apply Rabs_R0|].
    unfold diff, mv, tr1, two. destruct (y O) as [p q] eqn:Ey. cbn. rewrite Ey. symmetry. apply Ceq; unfold Csub, Re, Im; cbn; field. }
  assert (S : forall i, (i < 1)%nat -> @mv CR tr1 (fun _ => C1) i = b1 i).
  { intros i Hi. replace i with O by lia. apply Ceq; unfold mv, tr1, two, b1, C1; cbn; ring. }
  split; [apply acts_scale|]. split; [exact V|]. split; [exact S|].
  destruct (C55_exact 1 tr1 _ _ b1 (fun _ => C1) (/ 10) tr1_cols (acts_scale (/ 2, 0) 1) V ltac:(lra) S) as [X [E _]].
  split; [apply X; lia|]. etransitivity; [exact E|]. f_equal. rewrite euclid_one. unfold C1. rewrite Cabs_real, Rabs_right by lra. ring.
Qed.
