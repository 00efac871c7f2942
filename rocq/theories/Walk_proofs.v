(** The Hamiltonian in the frame of the particle: every operator and every hop
    is a step from a placement of phonons to another one (used for C65). *)
From Coq Require Import String ZArith Reals List Bool Lia Lra Permutation Classical FunctionalExtensionality.
From Verif Require Import Base NdArray_proofs Model HModel Ring Coef Cplx Physics Physics_proofs Toeplitz_proofs Weight_proofs Spec_eom Spec_model
  Spec_spectral Spec_engine Energy_proofs Spec_green Cutoff_proofs Tent_proofs.
Import ListNotations.
Open Scope list_scope.
Open Scope Z_scope.

Lemma placement_eq : forall n n' : placement, (forall t x, n t x = n' t x) -> n = n'.
Proof. intros n n' H. apply functional_extensionality. intros t. apply functional_extensionality. intros x. apply H. Qed.

(** * Sums over modes *)
Definition lf (z : Z) : R := ln (INR (fact (Z.to_nat z))).
Lemma lf_0 : lf 0 = 0%R.
Proof. unfold lf. change (INR (fact (Z.to_nat 0))) with 1%R. apply ln_1. Qed.
Lemma fact_pos : forall n, (0 < INR (fact n))%R.
Proof. intros n. change 0%R with (INR 0). apply lt_INR. apply lt_O_fact. Qed.
Lemma lf_ge0 : forall z, (0 <= lf z)%R.
Proof.
  intros z. unfold lf. rewrite <- ln_1. destruct (Req_dec 1 (INR (fact (Z.to_nat z)))) as [<- | N]; [lra|]. left. apply ln_increasing; [lra|].
  assert (1 <= INR (fact (Z.to_nat z)))%R by (change 1%R with (INR 1); apply le_INR; pose proof (lt_O_fact (Z.to_nat z)); lia). lra.
Qed.
Lemma lf_S : forall z, 0 <= z -> lf (z + 1) = (lf z + ln (IZR (z + 1)))%R.
Proof.
  intros z H. unfold lf. rewrite Z2Nat.inj_add by lia. change (Z.to_nat 1) with 1%nat. rewrite Nat.add_1_r. rewrite fact_simpl, mult_INR.
  rewrite ln_mult; [|apply lt_0_INR; lia|apply fact_pos]. rewrite INR_IZR_INZ, Nat2Z.inj_succ, Z2Nat.id by lia. unfold Z.succ. lra.
Qed.

Section Modes.
Variable nt : nat.

Fixpoint ints (x : Z) (n : nat) : list Z := match n with O => [] | S k => x :: ints (x + 1) k end.
Lemma in_ints : forall n x y, In y (ints x n) <-> x <= y < x + Z.of_nat n.
Proof. induction n as [|n IH]; intros x y; cbn [ints In]; [lia|]. rewrite IH. lia. Qed.
Lemma nodup_ints : forall n x, NoDup (ints x n).
Proof. induction n as [|n IH]; intros x; cbn [ints]; constructor; [rewrite in_ints; lia|apply IH]. Qed.
Lemma length_ints : forall n x, length (ints x n) = n.
Proof. induction n as [|n IH]; intros x; cbn [ints length]; [reflexivity|]. rewrite IH. reflexivity. Qed.

Definition modes (R : Z) : list (nat * Z) := flat_map (fun t => map (fun x => (t, x)) (ints (- R) (Z.to_nat (2 * R + 1)))) (seq 0 nt).
Lemma in_modes : forall R t x, In (t, x) (modes R) <-> (t < nt)%nat /\ Z.abs x <= R.
Proof.
  intros R t x. unfold modes. rewrite in_flat_map. split.
  - intros [t' [H1 H2]]. apply in_map_iff in H2. destruct H2 as [y [E H2]]. injection E as -> ->. apply in_seq in H1. apply in_ints in H2. lia.
  - intros [H1 H2]. exists t. split; [apply in_seq; lia|]. apply in_map_iff. exists x. split; [reflexivity|]. apply in_ints. lia.
Qed.
Lemma nodup_modes : forall R, NoDup (modes R).
Proof.
  intros R. unfold modes. generalize (seq_NoDup nt 0). generalize (seq 0 nt) as l. intros l ND. induction ND as [|t l N1 N2 IH]; cbn [flat_map]; [constructor|].
  apply NoDup_app; [apply NoDup_map_on; [|apply nodup_ints]; intros x y _ _ E; injection E as ->; reflexivity|exact IH|].
  intros [t' x] H1 H2. apply in_map_iff in H1. destruct H1 as [y [E _]]. injection E as <- _. apply in_flat_map in H2. destruct H2 as [t' [H2 H3]].
  apply in_map_iff in H3. destruct H3 as [z [E3 _]]. injection E3 as -> _. contradiction.
Qed.

Definition at_mode (n : placement) (p : nat * Z) : Z := n (fst p) (snd p).
Definition gsum (phi : nat -> Z -> R) (n : placement) (l : list (nat * Z)) : R := Rsum (map (fun p => phi (fst p) (at_mode n p)) l).
Definition lsum (n : placement) (l : list (nat * Z)) : R := gsum (fun _ => lf) n l.

(** All phonons within [k] sites of the particle. *)
Definition inside (k : Z) (n : placement) : Prop := forall t x, n t x <> 0 -> (t < nt)%nat /\ Z.abs x <= k.
Lemma inside_mono : forall k k' n, k <= k' -> inside k n -> inside k' n.
Proof. intros k k' n H I t x N. destruct (I t x N). split; [assumption|lia]. Qed.

Section Sum.
Variable phi : nat -> Z -> R.
Hypothesis phi_0 : forall t, phi t 0 = 0%R.

Lemma gsum_support : forall n l l', NoDup l -> NoDup l' -> (forall p, at_mode n p <> 0 -> In p l /\ In p l') -> gsum phi n l = gsum phi n l'.
Proof.
  intros n l l' N N' H. unfold gsum.
  destruct (sub_list (fun p => at_mode n p <> 0) l N) as [s [D [E Q]]]. destruct (sub_list (fun p => at_mode n p <> 0) l' N') as [s' [D' [E' Q']]].
  assert (Z0 : forall p, ~ at_mode n p <> 0 -> phi (fst p) (at_mode n p) = 0%R).
  { intros p H1. replace (at_mode n p) with 0 by lia. apply phi_0. }
  rewrite Q, Q' by (intros; apply Z0; assumption). apply Rsum_perm. apply NoDup_Permutation; [exact D|exact D'|].
  intros p. rewrite E, E'. split; intros [_ H1]; split; try exact H1; apply (H p H1).
Qed.

Lemma gsum_window : forall n R R', inside R n -> inside R' n -> gsum phi n (modes R) = gsum phi n (modes R').
Proof.
  intros n R R' I I'. apply gsum_support; try apply nodup_modes. intros [t x] H. unfold at_mode in H. cbn [fst snd] in H. rewrite !in_modes. split; [apply I|apply I']; exact H.
Qed.

Lemma gsum_translated : forall n s R, inside R n -> inside R (translated n s) -> gsum phi (translated n s) (modes R) = gsum phi n (modes R).
Proof.
  intros n s R I I'. unfold gsum.
  transitivity (Rsum (map (fun p => phi (fst p) (at_mode n p)) (map (fun p => (fst p, snd p - s)) (modes R)))).
  { rewrite map_map. reflexivity. }
  apply (gsum_support n); [|apply nodup_modes|].
  - apply NoDup_map_on; [|apply nodup_modes]. intros [t x] [t' x'] _ _ E. cbn [fst snd] in E. injection E as -> E. f_equal. lia.
  - intros [t x] H. unfold at_mode in H. cbn [fst snd] in H. split; [|apply in_modes, I, H].
    apply in_map_iff. exists (t, x + s). cbn [fst snd]. split; [f_equal; lia|]. apply in_modes. apply I'. unfold translated. replace (x + s - s) with x by lia. exact H.
Qed.

Lemma gsum_changed : forall n t0 x0 e R, (t0 < nt)%nat -> Z.abs x0 <= R ->
  gsum phi (changed n t0 x0 e) (modes R) = (gsum phi n (modes R) + (phi t0 (n t0 x0 + e)%Z - phi t0 (n t0 x0)))%R.
Proof.
  intros n t0 x0 e R Ht Hx. assert (I : In (t0, x0) (modes R)) by (apply in_modes; split; assumption).
  pose proof (nodup_modes R) as ND. unfold gsum. induction (modes R) as [|p l IH]; [destruct I|]. inversion ND as [|? ? N1 N2]; subst. rewrite !Rsum_cons.
  destruct (Nat.eqb (fst p) t0 && (snd p =? x0)) eqn:E.
  - assert (EP : p = (t0, x0)). { apply andb_prop in E. destruct E as [E1 E2]. apply Nat.eqb_eq in E1. apply Z.eqb_eq in E2. destruct p as [t x]. cbn [fst snd] in *. subst. reflexivity. }
    rewrite (Rsum_ext (fun p0 => phi (fst p0) (at_mode (changed n t0 x0 e) p0)) (fun p0 => phi (fst p0) (at_mode n p0)) l).
    + subst p. unfold at_mode, changed. cbn [fst snd]. rewrite Nat.eqb_refl, Z.eqb_refl. cbn [andb]. lra.
    + intros q Hq. unfold at_mode, changed. destruct (Nat.eqb (fst q) t0 && (snd q =? x0)) eqn:Eq; [|rewrite Z.add_0_r; reflexivity].
      exfalso. apply N1. apply andb_prop in Eq. destruct Eq as [E1 E2]. apply Nat.eqb_eq in E1. apply Z.eqb_eq in E2. rewrite EP, <- E1, <- E2. destruct q; exact Hq.
  - destruct I as [-> | I]; [cbn [fst snd] in E; rewrite Nat.eqb_refl, Z.eqb_refl in E; discriminate|]. rewrite (IH I N2).
    unfold at_mode at 1, changed at 1. rewrite E, Z.add_0_r. unfold at_mode at 2. lra.
Qed.
End Sum.

Lemma lsum_window : forall n R R', inside R n -> inside R' n -> lsum n (modes R) = lsum n (modes R').
Proof. exact (gsum_window (fun _ => lf) (fun _ => lf_0)). Qed.
Lemma lsum_translated : forall n s R, inside R n -> inside R (translated n s) -> lsum (translated n s) (modes R) = lsum n (modes R).
Proof. exact (gsum_translated (fun _ => lf) (fun _ => lf_0)). Qed.
Lemma lsum_changed : forall n t0 x0 e R, (t0 < nt)%nat -> Z.abs x0 <= R ->
  lsum (changed n t0 x0 e) (modes R) = (lsum n (modes R) + (lf (n t0 x0 + e) - lf (n t0 x0)))%R.
Proof. exact (gsum_changed (fun _ => lf)). Qed.

(** The weight of a placement: the product of 1 / n! over its modes. *)
Definition wt (W : Z) (n : placement) : R := exp (- lsum n (modes W)).
Lemma wt_pos : forall R n, (0 < wt R n)%R.
Proof. intros. apply exp_pos. Qed.
Lemma wt_le1 : forall R n, (wt R n <= 1)%R.
Proof.
  intros R n. unfold wt. assert (0 <= lsum n (modes R))%R by (apply Rsum_nonneg; intros; apply lf_ge0). rewrite <- exp_0.
  destruct (Req_dec (lsum n (modes R)) 0) as [-> | N]; [rewrite Ropp_0; lra|]. left. apply exp_increasing. lra.
Qed.
Lemma wt_vacuum : forall R, wt R vacuum = 1%R.
Proof.
  intros R. unfold wt, lsum, gsum. rewrite (Rsum_ext _ (fun _ => 0%R)); [rewrite Rsum_0, Ropp_0; apply exp_0|]. intros p _. unfold at_mode, vacuum. apply lf_0.
Qed.
Lemma wt_window : forall n R R', inside R n -> inside R' n -> wt R n = wt R' n.
Proof. intros n R R' I I'. unfold wt. rewrite (lsum_window n R R' I I'). reflexivity. Qed.

(** The distance of the farthest phonon, at least [rho]. *)
Definition lev (rho R : Z) (n : placement) : Z := fold_right Z.max rho (map (fun p => if at_mode n p =? 0 then 0 else Z.abs (snd p)) (modes R)).
Lemma lev_le : forall rho R n k, 0 <= rho <= k -> inside R n -> (lev rho R n <= k <-> inside k n).
Proof.
  intros rho R n k Hk I.
  assert (E : lev rho R n <= k <-> forall p, In p (modes R) -> at_mode n p <> 0 -> Z.abs (snd p) <= k).
  { unfold lev. induction (modes R) as [|p l IH]; cbn [map fold_right]; [split; [intros _ p []|lia]|]. rewrite Z.max_lub_iff, IH. split.
    - intros [H1 H2] q [-> | Hq] N; [destruct (Z.eqb_spec (at_mode n q) 0); [contradiction|exact H1]|exact (H2 q Hq N)].
    - intros H. split; [destruct (Z.eqb_spec (at_mode n p) 0); [lia|apply H; [left; reflexivity|assumption]]|]. intros q Hq. apply H. right. exact Hq. }
  rewrite E. split.
  - intros H t x N. destruct (I t x N) as [H1 H2]. split; [exact H1|]. exact (H (t, x) ltac:(apply in_modes; auto) N).
  - intros H [t x] _ N. apply (H t x N).
Qed.
Lemma lev_rho : forall rho R n, rho <= lev rho R n.
Proof. intros rho R n. unfold lev. induction (modes R) as [|p l IH]; cbn [map fold_right]; lia. Qed.
End Modes.

(** * Steps *)
Inductive move : Type := Hop (right : bool) | Act (h : hterm R).

Section Steps.
Variable nt : nat.
Variable c : Z.
Variable hop : R.
Variable kk : R.

Definition phase (s : Z) : C := Cexpi (- (kk * IZR s)).
Lemma phase_0 : phase 0 = C1.
Proof. unfold phase, Cexpi. rewrite Rmult_0_r, Ropp_0, cos_0, sin_0. reflexivity. Qed.
Lemma phase_add : forall s s', phase (s + s') = Cmul (phase s) (phase s').
Proof.
  intros s s'. unfold phase. rewrite plus_IZR. replace (- (kk * (IZR s + IZR s')))%R with (- (kk * IZR s) + - (kk * IZR s'))%R by ring.
  unfold Cexpi, Cmul, Re, Im. cbn [fst snd]. rewrite cos_plus, sin_plus. f_equal. ring.
Qed.
Lemma phase_conj : forall s, phase (- s) = Cconj (phase s).
Proof. intros s. unfold phase, Cexpi, Cconj, Re, Im. rewrite opp_IZR. cbn [fst snd]. replace (- (kk * - IZR s))%R with (- - (kk * IZR s))%R by ring. rewrite cos_neg, sin_neg. reflexivity. Qed.
Lemma phase_abs : forall s, Cabs (phase s) = 1%R.
Proof.
  intros s. unfold Cabs, phase, Cexpi, Cnorm2, Re, Im. cbn [fst snd]. generalize (- (kk * IZR s))%R as a. intros a.
  pose proof (sin2_cos2 a) as H. unfold Rsqr in H. rewrite Rplus_comm, H. apply sqrt_1.
Qed.

Definition ahead (o : move) : Z := match o with Hop true => 1 | Hop false => -1 | Act h => target h 0 end.
Definition moved (o : move) (n : placement) : placement := match o with Hop _ => n | Act h => after c h n 0 end.
Definition step (o : move) (n : placement) : placement := translated (moved o n) (- ahead o).
Definition weight (o : move) (n : placement) : R := match o with Hop _ => hop | Act h => (ht_coupling h * factor c h n 0)%R end.
Definition cur (D : placement -> C) (o : move) (n : placement) : R :=
  Im (Cmul (Cconj (D n)) (Cmul (RtoC (weight o n)) (Cmul (phase (ahead o)) (D (step o n))))).

(** Conjugate moves. *)
Inductive conj_move : move -> move -> Prop :=
| conj_hop : forall r, conj_move (Hop r) (Hop (negb r))
| conj_act : forall h h', target h' 0 = - target h 0 -> mode c h' 0 = mode c h 0 - target h 0 -> ht_dag h' = flip (ht_dag h) ->
    ht_index h' = ht_index h -> ht_coupling h' = ht_coupling h -> conj_move (Act h) (Act h').

Lemma conj_sym : forall o o', conj_move o o' -> conj_move o' o.
Proof.
  intros o o' K. destruct K as [r|h h' E1 E2 E3 E4 E5].
  - rewrite <- (negb_involutive r) at 2. constructor.
  - constructor; [lia|lia|rewrite E3; destruct (ht_dag h); reflexivity|congruence|congruence].
Qed.

Lemma ahead_conj : forall o o', conj_move o o' -> ahead o' = - ahead o.
Proof. intros o o' K. destruct K as [[|]|h h' E1]; try reflexivity. exact E1. Qed.

Definition sg (h : hterm R) : Z := match ht_dag h with Plus => 1 | Minus => -1 end.

Lemma step_act : forall h n t x, step (Act h) n t x = n t (x + target h 0) + (if Nat.eqb t (ht_index h) && (x =? mode c h 0 - target h 0) then sg h else 0).
Proof.
  intros h n t x. unfold step, translated, moved, after, changed, ahead, sg. replace (x - - target h 0) with (x + target h 0) by lia. f_equal.
  replace (x + target h 0 =? mode c h 0) with (x =? mode c h 0 - target h 0); [reflexivity|].
  destruct (Z.eqb_spec x (mode c h 0 - target h 0)), (Z.eqb_spec (x + target h 0) (mode c h 0)); try reflexivity; lia.
Qed.
Lemma step_hop : forall r n t x, step (Hop r) n t x = n t (x + ahead (Hop r)).
Proof. intros r n t x. unfold step, translated, moved. f_equal. lia. Qed.

Lemma step_conj : forall o o' n, conj_move o o' -> step o' (step o n) = n.
Proof.
  intros o o' n K. apply placement_eq. intros t x. destruct K as [r|h h' E1 E2 E3 E4 E5].
  - rewrite !step_hop. f_equal. destruct r; cbn [negb ahead]; lia.
  - rewrite !step_act. rewrite E1, E2, E4. replace (x + - target h 0 + target h 0) with x by lia.
    replace (x + - target h 0 =? mode c h 0 - target h 0) with (x =? mode c h 0) by (destruct (Z.eqb_spec x (mode c h 0)), (Z.eqb_spec (x + - target h 0) (mode c h 0 - target h 0)); try reflexivity; lia).
    replace (mode c h 0 - target h 0 - - target h 0) with (mode c h 0) by lia.
    replace (sg h') with (- sg h) by (unfold sg; rewrite E3; destruct (ht_dag h); reflexivity). destruct (_ && _); lia.
Qed.

(** Moves whose phonon is at most [rho] away from the particle. *)
Definition fits (rho : Z) (o : move) : Prop := match o with Hop _ => True | Act h => Z.abs (mode c h 0) <= rho /\ (ht_index h < nt)%nat end.

Lemma inside_moved : forall rho k o n, rho <= k -> fits rho o -> inside nt k n -> inside nt k (moved o n).
Proof.
  intros rho k o n H F I. destruct o as [r|h]; [exact I|]. intros t x N. cbn [moved] in N. unfold after, changed in N.
  destruct (Nat.eqb t (ht_index h) && (x =? mode c h 0)) eqn:E.
  - apply andb_prop in E. destruct E as [E1 E2]. apply Nat.eqb_eq in E1. apply Z.eqb_eq in E2. subst. destruct F. split; [assumption|lia].
  - apply I. lia.
Qed.

Lemma inside_step : forall rho k o n, rho <= k -> fits rho o -> inside nt k n -> inside nt (k + Z.abs (ahead o)) (step o n).
Proof.
  intros rho k o n H F I t x N. unfold step, translated in N. destruct (inside_moved rho k o n H F I _ _ N). split; [assumption|lia].
Qed.

(** The weights balance the factors of conjugate moves. *)
Lemma wt_step : forall rho W o o' n, rho <= W -> fits rho o -> conj_move o o' -> inside nt W n -> inside nt W (step o n) ->
  (forall t x, 0 <= n t x) -> (forall t x, 0 <= step o n t x) ->
  (wt nt W (step o n) * weight o' (step o n) = wt nt W n * weight o n)%R /\
  match o with Hop _ => wt nt W (step o n) = wt nt W n | Act h =>
    match ht_dag h with Plus => (wt nt W n = wt nt W (step o n) * IZR (step o n (ht_index h) (mode c h 0 - target h 0)%Z))%R
    | Minus => (wt nt W (step o n) = wt nt W n * factor c h n 0)%R end end.
Proof.
  intros rho W o o' n HW F K I I' P P'. destruct K as [r|h h' E1 E2 E3 E4 E5].
  - assert (E : wt nt W (step (Hop r) n) = wt nt W n) by (unfold wt; f_equal; f_equal; apply (lsum_translated nt n); assumption).
    cbn [weight]. rewrite E. split; reflexivity.
  - destruct F as [F1 F2]. cbn [weight]. rewrite E5.
    assert (V : step (Act h) n (ht_index h) (mode c h 0 - target h 0) = n (ht_index h) (mode c h 0) + sg h).
    { rewrite step_act, Nat.eqb_refl, Z.eqb_refl. cbn [andb]. f_equal. f_equal. lia. }
    assert (LS : lsum (step (Act h) n) (modes nt W) = (lsum n (modes nt W) + (lf (n (ht_index h) (mode c h 0) + sg h) - lf (n (ht_index h) (mode c h 0))))%R).
    { unfold step. rewrite (lsum_translated nt); [|apply (inside_moved rho); [exact HW|split; assumption|exact I]|exact I'].
      cbn [moved]. unfold after. rewrite lsum_changed; [reflexivity|exact F2|lia]. }
    pose proof (P (ht_index h) (mode c h 0)) as P0. pose proof (P' (ht_index h) (mode c h 0 - target h 0)) as P1. rewrite V in P1 |- *.
    unfold factor. rewrite E3, E4, E2. unfold sg in *. destruct (ht_dag h); cbn [flip] in *.
    + assert (Q : (wt nt W n = wt nt W (step (Act h) n) * IZR (n (ht_index h) (mode c h 0) + 1))%R).
      { unfold wt. rewrite LS, lf_S by exact P0. replace (- (lsum n (modes nt W) + (lf (n (ht_index h) (mode c h 0)) + ln (IZR (n (ht_index h) (mode c h 0) + 1)) - lf (n (ht_index h) (mode c h 0)))))%R
          with (- lsum n (modes nt W) + - ln (IZR (n (ht_index h) (mode c h 0) + 1)))%R by ring.
        rewrite exp_plus, (exp_Ropp (ln _)), exp_ln by (apply IZR_lt; lia). field. apply not_0_IZR. lia. }
      split; [|exact Q]. rewrite Q, V. ring.
    + assert (Q : (wt nt W (step (Act h) n) = wt nt W n * IZR (n (ht_index h) (mode c h 0)))%R).
      { unfold wt. rewrite LS. replace (n (ht_index h) (mode c h 0)) with (n (ht_index h) (mode c h 0) + -1 + 1) at 2 3 by lia.
        rewrite lf_S by exact P1. replace (- (lsum n (modes nt W) + (lf (n (ht_index h) (mode c h 0) + -1) - (lf (n (ht_index h) (mode c h 0) + -1) + ln (IZR (n (ht_index h) (mode c h 0) + -1 + 1))))))%R
          with (- lsum n (modes nt W) + ln (IZR (n (ht_index h) (mode c h 0) + -1 + 1)))%R by ring.
        rewrite exp_plus, exp_ln by (apply IZR_lt; lia). reflexivity. }
      split; [|exact Q]. rewrite Q. ring.
Qed.

(** Conjugate moves carry opposite currents. *)
Lemma cur_conj : forall D rho W o o' n, rho <= W -> fits rho o -> conj_move o o' -> inside nt W n -> inside nt W (step o n) ->
  (forall t x, 0 <= n t x) -> (forall t x, 0 <= step o n t x) ->
  (wt nt W (step o n) * cur D o' (step o n) = - (wt nt W n * cur D o n))%R.
Proof.
  intros D rho W o o' n HW F K I I' P P'. destruct (wt_step rho W o o' n HW F K I I' P P') as [Q _]. unfold cur.
  rewrite (step_conj o o' n K), (ahead_conj o o' K), phase_conj.
  set (a := D n) in *. set (b := D (step o n)) in *. set (p := phase (ahead o)) in *.
  transitivity (wt nt W (step o n) * weight o' (step o n) * Im (Cmul (Cconj b) (Cmul (Cconj p) a)))%R; [unfold Cmul, RtoC, Cconj, Re, Im; cbn [fst snd]; ring|].
  rewrite Q. unfold Cmul, RtoC, Cconj, Re, Im. cbn [fst snd]. ring.
Qed.

(** Size of a current. *)
Lemma Im_abs_le : forall z, (Rabs (Im z) <= Cabs z)%R.
Proof.
  intros z. apply Rabs_le. split; [|apply Im_abs]. pose proof (Im_abs (Copp z)) as H. replace (Cabs (Copp z)) with (Cabs z) in H.
  - change (Im (Copp z)) with (- Im z)%R in H. lra.
  - unfold Cabs. f_equal. unfold Cnorm2, Copp, Re, Im. cbn [fst snd]. ring.
Qed.

Lemma cur_abs : forall D o n, (Rabs (cur D o n) <= Rabs (weight o n) * (Cabs (D n) * Cabs (D (step o n))))%R.
Proof.
  intros D o n. unfold cur. eapply Rle_trans; [apply Im_abs_le|]. rewrite !Cabs_mul, Cabs_conj, phase_abs.
  replace (Cabs (RtoC (weight o n))) with (Rabs (weight o n)).
  - right. ring.
  - unfold Cabs, Cnorm2, RtoC, Re, Im. cbn [fst snd]. rewrite Rmult_0_l, Rplus_0_r. symmetry. apply sqrt_Rsqr_abs.
Qed.

Definition strength_of (N : Z) (o : move) : R := match o with Hop _ => Rabs hop | Act h => (sqrt (IZR N) * Rabs (ht_coupling h))%R end.

Lemma am_gm : forall u s d d' : R, (0 <= u <= s -> 0 <= d -> 0 <= d' -> 2 * (u * u) * (d * d') <= s * (u * u * (d * d) + d' * d'))%R.
Proof.
  intros u s d d' [H1 H2] Hd Hd'. assert (A : (0 <= s * ((u * d - d') * (u * d - d')))%R) by (apply Rmult_le_pos; [lra|apply Rle_0_sqr]).
  assert (B : (u * (u * (d * d')) <= s * (u * (d * d')))%R) by (apply Rmult_le_compat_r; [|exact H2]; apply Rmult_le_pos; [exact H1|apply Rmult_le_pos; assumption]).
  lra.
Qed.

Lemma cur_size : forall D rho W N o o' n, rho <= W -> fits rho o -> conj_move o o' -> inside nt W n -> inside nt W (step o n) ->
  (forall t x, 0 <= n t x <= N) -> (forall t x, 0 <= step o n t x <= N) ->
  (Rabs (wt nt W n * cur D o n) <= strength_of N o * (wt nt W n * Cnorm2 (D n) + wt nt W (step o n) * Cnorm2 (D (step o n))) / 2)%R.
Proof.
  intros D rho W N o o' n HW F K I I' P P'.
  destruct (wt_step rho W o o' n HW F K I I' (fun t x => proj1 (P t x)) (fun t x => proj1 (P' t x))) as [_ Q].
  rewrite Rabs_mult, (Rabs_right (wt nt W n)) by (left; apply wt_pos).
  eapply Rle_trans; [apply Rmult_le_compat_l; [left; apply wt_pos|apply cur_abs]|].
  rewrite <- !Cabs_sq. pose proof (Cabs_ge0 (D n)) as A. pose proof (Cabs_ge0 (D (step o n))) as B. set (d := Cabs (D n)) in *. set (d' := Cabs (D (step o n))) in *.
  pose proof (wt_pos nt W n) as W1. pose proof (wt_pos nt W (step o n)) as W2. destruct o as [r|h]; cbn [weight strength_of].
  - rewrite Q. pose proof (Rabs_pos hop) as H. pose proof (Rle_0_sqr (d - d')) as S. unfold Rsqr in S.
    assert (H1 : (wt nt W n * (Rabs hop * (d * d')) <= wt nt W n * (Rabs hop * ((d * d + d' * d') / 2)))%R).
    { apply Rmult_le_compat_l; [lra|]. apply Rmult_le_compat_l; [exact H|]. lra. }
    lra.
  - pose proof (Rabs_pos (ht_coupling h)) as H. unfold factor in *. destruct (ht_dag h) eqn:Ed.
    + destruct (P' (ht_index h) (mode c h 0 - target h 0)) as [L1 L2]. set (v := step (Act h) n (ht_index h) (mode c h 0 - target h 0)) in *.
      rewrite Rmult_1_r, Q. assert (V0 : (0 <= IZR v)%R) by (apply IZR_le; exact L1). assert (V1 : (IZR v <= IZR N)%R) by (apply IZR_le; exact L2).
      pose proof (sqrt_sqrt _ V0) as S. pose proof (am_gm (sqrt (IZR v)) (sqrt (IZR N)) d d' (conj (sqrt_pos _) (sqrt_le_1 _ _ V0 (Rle_trans _ _ _ V0 V1) V1)) A B) as G. rewrite S in G.
      assert (E : (wt nt W (step (Act h) n) * Rabs (ht_coupling h) * (2 * IZR v * (d * d')) <= wt nt W (step (Act h) n) * Rabs (ht_coupling h) * (sqrt (IZR N) * (IZR v * (d * d) + d' * d')))%R).
      { apply Rmult_le_compat_l; [apply Rmult_le_pos; lra|exact G]. }
      lra.
    + destruct (P (ht_index h) (mode c h 0)) as [L1 L2]. set (v := n (ht_index h) (mode c h 0)) in *. rewrite Q.
      assert (V0 : (0 <= IZR v)%R) by (apply IZR_le; exact L1). assert (V1 : (IZR v <= IZR N)%R) by (apply IZR_le; exact L2).
      pose proof (sqrt_sqrt _ V0) as S. pose proof (am_gm (sqrt (IZR v)) (sqrt (IZR N)) d' d (conj (sqrt_pos _) (sqrt_le_1 _ _ V0 (Rle_trans _ _ _ V0 V1) V1)) B A) as G. rewrite S in G.
      rewrite Rabs_mult, (Rabs_right (IZR v)) by lra.
      assert (E : (wt nt W n * Rabs (ht_coupling h) * (2 * IZR v * (d' * d)) <= wt nt W n * Rabs (ht_coupling h) * (sqrt (IZR N) * (IZR v * (d' * d') + d * d)))%R).
      { apply Rmult_le_compat_l; [apply Rmult_le_pos; lra|exact G]. }
      lra.
Qed.
End Steps.
