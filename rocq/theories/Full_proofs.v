(** Square-summable solutions on all placements of phonons: a weight that is cut
    both in the distance to the particle and in the number of phonons (used for
    C66). *)
From Coq Require Import String ZArith Reals List Bool Lia Lra Permutation Classical.
From Verif Require Import Base NdArray_proofs Model HModel Cplx Physics Physics_proofs Toeplitz_proofs Weight_proofs Spec_eom
  Spec_spectral Energy_proofs Spec_green Cutoff_proofs Tent_proofs Walk_proofs Reach_proofs.
Import ListNotations.
Open Scope list_scope.
Open Scope Z_scope.

Lemma no_dups : forall {A} (X : list A), exists Y, NoDup Y /\ forall n, In n Y <-> In n X.
Proof.
  intros A. induction X as [|n X [Y [NY EY]]]; [exists []; split; [constructor|tauto]|].
  destruct (classic (In n X)) as [I|NI]; [exists Y|exists (n :: Y)].
  - split; [exact NY|]. intros x. rewrite EY. cbn [In]. split; [auto|intros [<- | H]; auto].
  - split; [constructor; [rewrite EY; exact NI|exact NY]|]. intros x. cbn [In]. rewrite EY. tauto.
Qed.

(** * Finitely many placements *)
Section Finite.
Variable nt : nat.

Fixpoint enum (P : Z) (l : list (nat * Z)) : list placement :=
  match l with [] => [vacuum] | p :: r => flat_map (fun n => map (fun v => changed n (fst p) (snd p) v) (ints 0 (Z.to_nat (P + 1)))) (enum P r) end.

Lemma in_enum : forall P l n, NoDup l -> (forall p, at_mode n p <> 0 -> In p l) -> (forall t x, 0 <= n t x <= P) -> In n (enum P l).
Proof.
  intros P. induction l as [|p l IH]; intros n ND S B; cbn [enum].
  - left. symmetry. apply placement_eq. intros t x. unfold vacuum. destruct (Z.eq_dec (n t x) 0) as [E|E]; [exact E|destruct (S (t, x) E)].
  - inversion ND as [|? ? N1 N2]; subst. destruct p as [t0 x0]. cbn [fst snd]. apply in_flat_map.
    exists (changed n t0 x0 (- n t0 x0)). split.
    + apply IH; [exact N2| |].
      * intros [t x] H. unfold at_mode, changed in H. cbn [fst snd] in H. destruct (Nat.eqb t t0 && (x =? x0)) eqn:E.
        -- apply andb_prop in E. destruct E as [E1 E2]. apply Nat.eqb_eq in E1. apply Z.eqb_eq in E2. subst. lia.
        -- destruct (S (t, x)) as [Q|Q]; [unfold at_mode; cbn [fst snd]; lia| |exact Q]. injection Q as -> ->. rewrite Nat.eqb_refl, Z.eqb_refl in E. discriminate.
      * intros t x. unfold changed. destruct (Nat.eqb t t0 && (x =? x0)) eqn:E; [|pose proof (B t x); lia].
        apply andb_prop in E. destruct E as [E1 E2]. apply Nat.eqb_eq in E1. apply Z.eqb_eq in E2. subst. pose proof (B t0 x0). lia.
    + apply in_map_iff. exists (n t0 x0). split; [|apply in_ints; pose proof (B t0 x0); lia].
      apply placement_eq. intros t x. unfold changed. destruct (Nat.eqb t t0 && (x =? x0)) eqn:E; [|lia].
      apply andb_prop in E. destruct E as [E1 E2]. apply Nat.eqb_eq in E1. apply Z.eqb_eq in E2. subst. lia.
Qed.

(** Number of phonons. *)
Definition tot (W : Z) (n : placement) : R := gsum (fun _ z => IZR z) n (modes nt W).
Lemma tot_int : forall W n, exists z, tot W n = IZR z.
Proof.
  intros W n. unfold tot, gsum. induction (modes nt W) as [|p l [z IH]]; [exists 0; reflexivity|]. exists (at_mode n p + z). rewrite Rsum_cons, IH, plus_IZR. reflexivity.
Qed.
Lemma tot_pos : forall W n, (forall t x, 0 <= n t x) -> (0 <= tot W n)%R.
Proof. intros W n H. apply Rsum_nonneg. intros p _. apply IZR_le. apply H. Qed.
Lemma tot_vacuum : forall W, tot W vacuum = 0%R.
Proof. intros W. unfold tot, gsum. rewrite (Rsum_ext _ (fun _ => 0%R)); [apply Rsum_0|]. intros p _. reflexivity. Qed.
Lemma tot_ge : forall W n t x, (forall t x, 0 <= n t x) -> inside nt W n -> (IZR (n t x) <= tot W n)%R.
Proof.
  intros W n t x P I. destruct (Z.eq_dec (n t x) 0) as [-> | E]; [apply tot_pos; exact P|]. pose proof (proj2 (in_modes nt W t x) (I t x E)) as M. unfold tot, gsum.
  induction (modes nt W) as [|p l IH]; [destruct M|]. rewrite Rsum_cons. destruct M as [-> | M].
  - assert (0 <= Rsum (map (fun p => IZR (at_mode n p)) l))%R by (apply Rsum_nonneg; intros q _; apply IZR_le; apply P). unfold at_mode at 1. cbn [fst snd]. lra.
  - assert (0 <= IZR (at_mode n p))%R by (apply IZR_le; apply P). specialize (IH M). lra.
Qed.
Lemma tot_window : forall W W' n, inside nt W n -> inside nt W' n -> tot W n = tot W' n.
Proof. intros W W' n. apply (gsum_window nt _ (fun _ => eq_refl)). Qed.

Definition dt (o : move) : R := match o with Hop _ => 0%R | Act _ => 1%R end.
Lemma tot_step : forall c rho W o n, rho <= W -> fits nt c rho o -> inside nt W n -> inside nt W (step c o n) -> (Rabs (tot W n - tot W (step c o n)) <= dt o)%R.
Proof.
  intros c rho W o n HW F I I'. unfold tot. unfold step. rewrite (gsum_translated nt _ (fun _ => eq_refl)); [|apply (inside_moved nt c rho); assumption|exact I'].
  destruct o as [b|h]; cbn [moved dt]; [rewrite Rminus_diag_eq by reflexivity; rewrite Rabs_R0; lra|].
  destruct F as [F1 F2]. unfold after. rewrite gsum_changed; [|exact F2|lia]. rewrite plus_IZR. set (g := gsum _ _ _). set (q := IZR (n _ _)).
  destruct (ht_dag h).
  - replace (g - (g + (q + 1 - q)))%R with (- 1)%R by ring. unfold Rabs; destruct (Rcase_abs _); lra.
  - replace (g - (g + (q + -1 - q)))%R with 1%R by ring. rewrite Rabs_R1. lra.
Qed.

Lemma finite_in : forall (dom : placement -> Prop) W P, (forall n, dom n -> forall t x, 0 <= n t x) ->
  exists M, NoDup M /\ forall n, In n M <-> dom n /\ inside nt W n /\ (tot W n <= IZR P)%R.
Proof.
  intros dom W P DP. destruct (no_dups (enum P (modes nt W))) as [Y [NY EY]].
  destruct (sub_list (fun n => dom n /\ inside nt W n /\ (tot W n <= IZR P)%R) Y NY) as [M [NM [EM _]]]. exists M. split; [exact NM|]. intros n. rewrite EM. split; [tauto|].
  intros H. split; [|exact H]. destruct H as [H1 [H2 H3]]. apply EY. apply in_enum; [apply nodup_modes| |].
  - intros [t x] Q. apply in_modes. apply H2. exact Q.
  - intros t x. split; [apply DP, H1|]. apply le_IZR. eapply Rle_trans; [apply (tot_ge W n t x (DP n H1) H2)|exact H3].
Qed.
End Finite.

Lemma Rmin_slow : forall a b a' b', (Rabs (Rmin a b - Rmin a' b') <= Rabs (a - a') + Rabs (b - b'))%R.
Proof.
  intros a b a' b'. unfold Rmin. destruct (Rle_dec a b), (Rle_dec a' b'); unfold Rabs; repeat destruct (Rcase_abs _); lra.
Qed.
Lemma Rmax_slow : forall a b, (Rabs (Rmax 0 a - Rmax 0 b) <= Rabs (a - b))%R.
Proof. intros a b. unfold Rmax. destruct (Rle_dec 0 a), (Rle_dec 0 b); unfold Rabs; repeat destruct (Rcase_abs _); lra. Qed.

Section Full.
Variable nt : nat.
Variable c : Z.
Variable hop kk eta : R.
Hypothesis eta_pos : (0 < eta)%R.
Variable rho r : Z.
Hypothesis rho_pos : 0 <= rho.
Hypothesis r_pos : 0 <= r.
Variable os os' : list move.
Hypothesis os_perm : Permutation os os'.
Hypothesis os_conj : Forall2 (conj_move c) os os'.
Hypothesis os_fit : forall o, In o os -> fits nt c rho o.
Hypothesis os_short : forall o, In o os -> Z.abs (ahead o) <= r.
Variable dom : placement -> Prop.
Hypothesis dom_vacuum : dom vacuum.
Hypothesis dom_pos : forall n, dom n -> forall t x, 0 <= n t x.

Notation step := (step c).
Notation cur := (cur c hop kk).
Notation mass := (mass nt).
Notation tot := (tot nt).

(** The rows hold for up to [p] phonons within [k] sites. *)
Definition rows_within (D : placement -> C) (src : placement -> R) (k p : Z) : Prop :=
  forall n, dom n -> inside nt k n -> (tot k n <= IZR p)%R -> (eta * Cnorm2 (D n) + Rsum (map (fun o => cur D o n) os) = src n)%R.

(** What changes the number of phonons. *)
Definition push (N : Z) : R := (Rsum (map (fun o => dt o * strength_of hop N o) os) / 2)%R.

Lemma drifts : forall N, (0 <= drift hop N os)%R.
Proof. intros N. unfold drift. enough (0 <= Rsum (map (fun o => IZR (Z.abs (ahead o)) * strength_of hop N o) os))%R by lra. apply Rsum_nonneg. intros o _. apply Rmult_le_pos; [apply IZR_le; lia|apply strength_pos]. Qed.

Lemma push_pos : forall N, (0 <= push N)%R.
Proof.
  intros N. unfold push. enough (0 <= Rsum (map (fun o => dt o * strength_of hop N o) os))%R by lra. apply Rsum_nonneg. intros o _.
  apply Rmult_le_pos; [destruct o; cbn [dt]; lra|apply strength_pos].
Qed.

Section Tent.
Variable D : placement -> C.
Variable src : placement -> R.
Hypothesis D_dom : forall n, D n <> C0 -> dom n.
Hypothesis src_vacuum : forall n, n <> vacuum -> src n = 0%R.
Variable K P : Z.
Hypothesis K_pos : 1 <= K.
Hypothesis P_pos : 1 <= P.
Hypothesis D_rows : rows_within D src (K + rho - 1) (P - 1).
Let W := K + rho + r + r.

Definition cone (n : placement) : R := Rmin (IZR P * chi nt rho r K n) (IZR K * Rmax 0 (IZR P - tot W n)).

Lemma IZR_pos : forall z, 1 <= z -> (1 <= IZR z)%R.
Proof. intros z H. apply IZR_le. exact H. Qed.

Lemma cone_pos : forall n, (0 <= cone n)%R.
Proof.
  intros n. pose proof (IZR_pos K K_pos). pose proof (IZR_pos P P_pos). apply Rmin_glb; apply Rmult_le_pos; try lra; [apply chi_pos|apply Rmax_l].
Qed.

Definition slope (o : move) : R := (IZR P * IZR (Z.abs (ahead o)) + IZR K * dt o)%R.
Lemma cone_step : forall o n, In o os -> inside nt W n -> inside nt W (step o n) -> (Rabs (cone n - cone (step o n)) <= slope o)%R.
Proof.
  intros o n Ho I I'. pose proof (IZR_pos K K_pos). pose proof (IZR_pos P P_pos). unfold cone, slope. eapply Rle_trans; [apply Rmin_slow|]. apply Rplus_le_compat.
  - rewrite <- Rmult_minus_distr_l, Rabs_mult, (Rabs_right (IZR P)) by lra. apply Rmult_le_compat_l; [lra|].
    apply (chi_step nt c rho r rho_pos os os' os_perm os_conj os_fit os_short); assumption.
  - rewrite <- Rmult_minus_distr_l, Rabs_mult, (Rabs_right (IZR K)) by lra. apply Rmult_le_compat_l; [lra|]. eapply Rle_trans; [apply Rmax_slow|].
    replace (IZR P - tot W n - (IZR P - tot W (step o n)))%R with (- (tot W n - tot W (step o n)))%R by ring. rewrite Rabs_Ropp.
    apply (tot_step nt c rho); [unfold W; lia|apply os_fit, Ho|exact I|exact I'].
Qed.

Lemma cone_far : forall n, inside nt W n -> ~ inside nt (K + rho - 1) n -> cone n = 0%R.
Proof.
  intros n I H. pose proof (IZR_pos K K_pos). unfold cone. rewrite (chi_out nt rho r rho_pos K K_pos n I H), Rmult_0_r. apply Rmin_left. apply Rmult_le_pos; [lra|apply Rmax_l].
Qed.
Lemma cone_many : forall n, (IZR P <= tot W n)%R -> cone n = 0%R.
Proof.
  intros n H. pose proof (IZR_pos K K_pos). pose proof (IZR_pos P P_pos). unfold cone. rewrite (Rmax_left 0) by lra. rewrite Rmult_0_r. apply Rmin_right. apply Rmult_le_pos; [lra|apply chi_pos].
Qed.
Lemma cone_vacuum : cone vacuum = (IZR P * IZR K)%R.
Proof.
  pose proof (IZR_pos K K_pos). pose proof (IZR_pos P P_pos). unfold cone. rewrite (chi_vacuum nt rho r rho_pos K K_pos), tot_vacuum, Rminus_0_r, Rmax_right by lra. rewrite (Rmult_comm (IZR K)). apply Rmin_left. lra.
Qed.
Lemma cone_in : forall n k p, inside nt W n -> inside nt k n -> 0 <= k -> (tot W n <= IZR p)%R -> (Rmin (IZR P * IZR (K - k)) (IZR K * IZR (P - p)) <= cone n)%R.
Proof.
  intros n k p I H Hk Hp. pose proof (IZR_pos K K_pos). pose proof (IZR_pos P P_pos). unfold cone. apply Rmin_glb.
  - eapply Rle_trans; [apply Rmin_l|]. apply Rmult_le_compat_l; [lra|]. apply chi_in; assumption.
  - eapply Rle_trans; [apply Rmin_r|]. apply Rmult_le_compat_l; [lra|]. rewrite minus_IZR. eapply Rle_trans; [|apply Rmax_r]. lra.
Qed.

Theorem cone_balance : forall V, norm_le nt dom D V -> forall k p L, 0 <= k <= K -> NoDup L ->
  (forall n, In n L -> dom n /\ inside nt k n /\ (tot W n <= IZR p)%R) -> p <= P ->
  (eta * Rmin (IZR P * IZR (K - k)) (IZR K * IZR (P - p)) * Rsum (map (mass D k) L) <= IZR P * IZR K * src vacuum + (IZR P * drift hop P os + IZR K * push P) * V)%R.
Proof.
  intros V HV k p L Hk NL HL HpP. pose proof (IZR_pos K K_pos) as K1. pose proof (IZR_pos P P_pos) as P1.
  set (W1 := K + rho + r). destruct (finite_in nt dom W1 P dom_pos) as [M [NM IM]].
  assert (In_W : forall n, In n M -> inside nt W n) by (intros n Hn; apply IM in Hn; apply (inside_mono nt W1); [unfold W, W1; lia|apply Hn]).
  assert (TW : forall n, In n M -> (tot W n <= IZR P)%R) by (intros n Hn; rewrite (tot_window nt W W1); [apply IM, Hn|apply In_W, Hn|apply IM, Hn]).
  assert (Vac : In vacuum M) by (apply IM; split; [exact dom_vacuum|split; [apply inside_vacuum|rewrite tot_vacuum; lra]]).
  assert (IW' : forall o s, In o os -> In s M -> inside nt W (step o s)).
  { intros o s Ho Hs. pose proof (os_short o Ho). apply (inside_mono nt (W1 + Z.abs (ahead o))); [unfold W, W1; lia|]. apply (inside_step nt c rho); [unfold W1; lia|apply os_fit, Ho|apply IM, Hs]. }
  assert (T : (eta * Rsum (map (fun s => cone s * mass D W s) M) <= Rsum (map (fun s => cone s * (wt nt W s * src s)) M)
      + Rsum (map (fun o => slope o * strength_of hop P o) os) / 2 * Rsum (map (mass D W) M))%R).
  { apply (balance_in nt c hop kk eta P rho os os' os_perm os_conj os_fit D src cone slope W M); [unfold W; lia|exact NM|exact In_W| | | | |].
    - intros n Hn t x. apply IM in Hn as Hn'. destruct Hn' as [H1 [H2 H3]]. split; [apply dom_pos, H1|]. apply le_IZR. eapply Rle_trans; [apply (tot_ge nt W n t x (dom_pos n H1) (In_W n Hn))|apply TW, Hn].
    - intros o. unfold slope. apply Rplus_le_le_0_compat; apply Rmult_le_pos; try lra; [apply IZR_le; lia|destruct o; cbn [dt]; lra].
    - intros o s Ho Hs Ns. destruct (classic (D (step o s) = C0)) as [Z0|NZ]; [left; exact Z0|right]. pose proof (D_dom _ NZ) as Ds.
      pose proof (IW' o s Ho Hs) as I'. pose proof (os_short o Ho) as SH.
      destruct (classic (inside nt W1 (step o s))) as [I1|NI].
      + assert (TP : (IZR P < tot W1 (step o s))%R) by (apply Rnot_le_lt; intros Q; apply Ns, IM; auto).
        rewrite (tot_window nt W1 W _ I1 I') in TP.
        split; apply cone_many; [|lra]. pose proof (tot_step nt c rho W o s ltac:(unfold W; lia) (os_fit o Ho) (In_W s Hs) I') as TS.
        destruct (tot_int nt W s) as [z Ez]. destruct (tot_int nt W (step o s)) as [z' Ez']. rewrite Ez, Ez' in *. apply IZR_le. apply lt_IZR in TP.
        assert (D1 : (dt o <= 1)%R) by (destruct o; cbn [dt]; lra).
        assert (Q : (IZR (Z.abs (z - z')) <= 1)%R) by (rewrite abs_IZR, minus_IZR; lra). apply le_IZR in Q. lia.
      + split; apply cone_far; [apply In_W, Hs| |exact I'|].
        * intros I. apply NI. apply (inside_mono nt (K + rho - 1 + Z.abs (ahead o))); [unfold W1; lia|]. apply (inside_step nt c rho); [lia|apply os_fit, Ho|exact I].
        * intros I. apply NI. apply (inside_mono nt (K + rho - 1)); [unfold W1; lia|exact I].
    - intros s Hs. destruct (classic (inside nt (K + rho - 1) s)) as [I|NI]; [|left; apply cone_far; [apply In_W, Hs|exact NI]].
      destruct (Rle_lt_dec (IZR P) (tot W s)) as [Q|Q]; [left; apply cone_many; exact Q|right]. apply D_rows; [apply IM, Hs|exact I|].
      rewrite (tot_window nt _ W s I (In_W s Hs)). destruct (tot_int nt W s) as [z Ez]. rewrite Ez in *. apply IZR_le. apply lt_IZR in Q. lia.
    - intros o s Ho Hs Hs'. apply cone_step; [exact Ho|apply In_W, Hs|apply In_W, Hs']. }
  rewrite (single (fun s => cone s * (wt nt W s * src s))%R M NM Vac) in T by (intros n Hn; rewrite (src_vacuum n Hn); ring).
  rewrite cone_vacuum, wt_vacuum, Rmult_1_l in T.
  assert (SL : (Rsum (map (fun o => slope o * strength_of hop P o) os) / 2 = IZR P * drift hop P os + IZR K * push P)%R).
  { unfold drift, push, slope. rewrite (Rsum_ext _ (fun o => IZR P * (IZR (Z.abs (ahead o)) * strength_of hop P o) + IZR K * (dt o * strength_of hop P o))%R) by (intros; ring).
    rewrite Rsum_add, !Rsum_scal. field. }
  rewrite SL in T. pose proof (drifts P) as DP. pose proof (push_pos P) as PP.
  assert (MV : (Rsum (map (mass D W) M) <= V)%R).
  { rewrite (mass_window nt D W1); [|intros n Hn; apply IM, Hn|unfold W, W1; lia]. apply HV; [unfold W1; lia|exact NM|]. intros n Hn. apply IM in Hn. tauto. }
  assert (LOW : (Rmin (IZR P * IZR (K - k)) (IZR K * IZR (P - p)) * Rsum (map (mass D k) L) <= Rsum (map (fun s => cone s * mass D W s) M))%R).
  { rewrite <- (mass_window nt D k W L) by (try (unfold W; lia); intros n Hn; apply HL, Hn). rewrite <- Rsum_scal. eapply Rle_trans; [apply (Rsum_le _ (fun s => cone s * mass D W s)%R)|].
    - intros n Hn. destruct (HL n Hn) as [H1 [H2 H3]]. apply Rmult_le_compat_r; [apply mass_pos|]. apply cone_in; [apply (inside_mono nt k); [unfold W; lia|exact H2]|exact H2|lia|exact H3].
    - apply Rsum_incl; [exact NL| |intros; apply Rmult_le_pos; [apply cone_pos|apply mass_pos]].
      intros n Hn. destruct (HL n Hn) as [H1 [H2 H3]]. apply IM. split; [exact H1|]. assert (I1 : inside nt W1 n) by (apply (inside_mono nt k); [unfold W1; lia|exact H2]). split; [exact I1|].
      rewrite (tot_window nt W1 W); [|exact I1|apply (inside_mono nt k); [unfold W; lia|exact H2]]. eapply Rle_trans; [exact H3|]. apply IZR_le. exact HpP. }
  assert (Q1 : (0 <= IZR P * drift hop P os + IZR K * push P)%R) by (apply Rplus_le_le_0_compat; apply Rmult_le_pos; lra).
  assert (Q2 : ((IZR P * drift hop P os + IZR K * push P) * Rsum (map (mass D W) M) <= (IZR P * drift hop P os + IZR K * push P) * V)%R) by (apply Rmult_le_compat_l; assumption).
  assert (Q3 := Rmult_le_compat_l eta _ _ (Rlt_le _ _ eta_pos) LOW). rewrite <- Rmult_assoc in Q3. lra.
Qed.
End Tent.

Lemma norm_sub : forall F F' V V', norm_le nt dom F V -> norm_le nt dom F' V' -> norm_le nt dom (fun n => Csub (F n) (F' n)) (2 * V + 2 * V').
Proof.
  intros F F' V V' NF NF' k L Hk NL HL.
  eapply Rle_trans; [apply (Rsum_le _ (fun n => 2 * mass F k n + 2 * mass F' k n)%R)|].
  - intros n _. unfold Reach_proofs.mass. pose proof (wt_pos nt k n) as W0.
    assert (Cnorm2 (Csub (F n) (F' n)) <= 2 * Cnorm2 (F n) + 2 * Cnorm2 (F' n))%R
      by (unfold Cnorm2, Csub, Re, Im; cbn [fst snd]; pose proof (Rle_0_sqr (fst (F n) + fst (F' n))); pose proof (Rle_0_sqr (snd (F n) + snd (F' n))); unfold Rsqr in *; lra).
    assert (wt nt k n * Cnorm2 (Csub (F n) (F' n)) <= wt nt k n * (2 * Cnorm2 (F n) + 2 * Cnorm2 (F' n)))%R by (apply Rmult_le_compat_l; lra). lra.
  - rewrite Rsum_add, !Rsum_scal. pose proof (NF k L Hk NL HL). pose proof (NF' k L Hk NL HL). lra.
Qed.

Lemma norm_nonneg : forall D V, norm_le nt dom D V -> (0 <= V)%R.
Proof. intros D V H. specialize (H 0 [] ltac:(lia) ltac:(constructor) ltac:(intros n [])). exact H. Qed.

Lemma strength_q : forall q o, 1 <= q -> (strength_of hop (q * q) o <= IZR q * strength_of hop 1 o)%R.
Proof.
  intros q o Hq. pose proof (IZR_pos q Hq) as Q. destruct o as [b|h]; cbn [strength_of].
  - pose proof (Rabs_pos hop). assert (1 * Rabs hop <= IZR q * Rabs hop)%R by (apply Rmult_le_compat_r; lra). lra.
  - rewrite mult_IZR, sqrt_square by lra. rewrite sqrt_1. lra.
Qed.

Definition flow : R := (drift hop 1 os + push 1)%R.

Lemma flow_q : forall q, 1 <= q -> (drift hop (q * q) os <= IZR q * drift hop 1 os /\ push (q * q) <= IZR q * push 1)%R.
Proof.
  intros q Hq. unfold drift, push.
  assert (A : forall f : move -> R, (forall o, 0 <= f o)%R -> (Rsum (map (fun o => f o * strength_of hop (q * q) o) os) <= IZR q * Rsum (map (fun o => f o * strength_of hop 1 o) os))%R).
  { intros f Hf. rewrite <- Rsum_scal. apply Rsum_le. intros o _. pose proof (strength_q q o Hq) as S. pose proof (Hf o).
    assert (f o * strength_of hop (q * q) o <= f o * (IZR q * strength_of hop 1 o))%R by (apply Rmult_le_compat_l; lra). lra. }
  pose proof (A (fun o => IZR (Z.abs (ahead o))) ltac:(intros o; apply IZR_le; lia)) as A1. pose proof (A dt ltac:(intros o; destruct o; cbn [dt]; lra)) as A2. cbn beta in A1. split; lra.
Qed.

(** Both cuts at once, as functions of one number. *)
Lemma cone_q : forall D src q, (forall n, D n <> C0 -> dom n) -> (forall n, n <> vacuum -> src n = 0%R) -> 1 <= q ->
  rows_within D src (q * (q * q) + rho - 1) (q * q - 1) -> forall V, norm_le nt dom D V ->
  forall k p L, 0 <= k <= q -> 0 <= p <= q -> NoDup L -> (forall n, In n L -> dom n /\ inside nt k n /\ (tot k n <= IZR p)%R) ->
  (eta * (IZR q - IZR (k + p)) * Rsum (map (mass D k) L) <= IZR q * src vacuum + flow * V)%R.
Proof.
  intros D src q HD HS Hq HR V HV k p L Hk Hp NL HL. pose proof (IZR_pos q Hq) as Q.
  assert (q <= q * q) by nia. assert (q * q <= q * (q * q)) by nia.
  assert (IW : forall n, In n L -> inside nt (q * (q * q) + rho + r + r) n) by (intros n Hn; apply (inside_mono nt k); [lia|apply HL, Hn]).
  assert (HL' : forall n, In n L -> dom n /\ inside nt k n /\ (tot (q * (q * q) + rho + r + r) n <= IZR p)%R).
  { intros n Hn. destruct (HL n Hn) as [H1 [H2 H3]]. split; [exact H1|]. split; [exact H2|]. rewrite (tot_window nt _ k n (IW n Hn) H2). exact H3. }
  pose proof (cone_balance D src HD HS (q * (q * q)) (q * q) ltac:(nia) ltac:(nia) HR V HV k p L ltac:(lia) NL HL' ltac:(lia)) as B.
  destruct (flow_q q Hq) as [F1 F2]. pose proof (norm_nonneg D V HV) as V0. pose proof (drifts 1) as D1. pose proof (push_pos 1) as P1.
  set (S := Rsum (map (mass D k) L)) in *. assert (S0 : (0 <= S)%R) by (apply Rsum_nonneg; intros; apply mass_pos).
  set (x := IZR q) in *. unfold flow. rewrite !minus_IZR, !mult_IZR in B. fold x in B. rewrite plus_IZR.
  assert (K0 : (0 <= IZR k)%R) by (apply IZR_le; lia). assert (P0 : (0 <= IZR p)%R) by (apply IZR_le; lia). set (kk' := IZR k) in *. set (pp := IZR p) in *.
  set (x4 := (x * x * (x * x))%R). assert (X2 : (1 <= x * x)%R) by (apply Rle_trans with (1 * 1)%R; [lra|apply Rmult_le_compat; lra]).
  assert (X3 : (x * x <= x * x * x)%R) by (rewrite <- (Rmult_1_r (x * x)) at 1; apply Rmult_le_compat_l; lra).
  assert (X4 : (x * x * x <= x4)%R) by (unfold x4; replace (x * x * (x * x))%R with (x * x * x * x)%R by ring; rewrite <- (Rmult_1_r (x * x * x)) at 1; apply Rmult_le_compat_l; lra).
  assert (MN : (x4 * (x - (kk' + pp)) <= Rmin (x * x * (x * (x * x) - kk')) (x * (x * x) * (x * x - pp)))%R).
  { apply Rmin_glb.
    - replace (x * x * (x * (x * x) - kk'))%R with (x4 * x - x * x * kk')%R by (unfold x4; ring).
      assert (x * x * kk' <= x4 * kk')%R by (apply Rmult_le_compat_r; lra). assert (0 <= x4 * pp)%R by (apply Rmult_le_pos; lra). lra.
    - replace (x * (x * x) * (x * x - pp))%R with (x4 * x - x * x * x * pp)%R by (unfold x4; ring).
      assert (x * x * x * pp <= x4 * pp)%R by (apply Rmult_le_compat_r; lra). assert (0 <= x4 * kk')%R by (apply Rmult_le_pos; lra). lra. }
  assert (L1 : (x4 * (eta * (x - (kk' + pp)) * S) <= eta * Rmin (x * x * (x * (x * x) - kk')) (x * (x * x) * (x * x - pp)) * S)%R).
  { replace (x4 * (eta * (x - (kk' + pp)) * S))%R with (eta * (x4 * (x - (kk' + pp))) * S)%R by ring.
    apply Rmult_le_compat_r; [exact S0|]. apply Rmult_le_compat_l; lra. }
  assert (L2 : (x * x * drift hop (q * q) os + x * (x * x) * push (q * q) <= x4 * (drift hop 1 os + push 1))%R).
  { assert (x * x * drift hop (q * q) os <= x * x * (x * drift hop 1 os))%R by (apply Rmult_le_compat_l; lra).
    assert (x * (x * x) * push (q * q) <= x * (x * x) * (x * push 1))%R by (apply Rmult_le_compat_l; [lra|exact F2]).
    assert (x * x * x * drift hop 1 os <= x4 * drift hop 1 os)%R by (apply Rmult_le_compat_r; lra).
    replace (x * (x * x) * (x * push 1))%R with (x4 * push 1)%R in * by (unfold x4; ring). lra. }
  assert (L3 : ((x * x * drift hop (q * q) os + x * (x * x) * push (q * q)) * V <= x4 * (drift hop 1 os + push 1) * V)%R) by (apply Rmult_le_compat_r; assumption).
  apply Rmult_le_reg_l with x4; [lra|].
  replace (x4 * (x * src vacuum + (drift hop 1 os + push 1) * V))%R with (x * x * (x * (x * x)) * src vacuum + x4 * (drift hop 1 os + push 1) * V)%R by (unfold x4; ring). lra.
Qed.

Lemma tot_list : forall k (L : list placement), exists p, 0 <= p /\ forall n, In n L -> (tot k n <= IZR p)%R.
Proof.
  intros k L. induction L as [|n L [p [P0 IH]]]; [exists 0; split; [lia|intros n []]|]. destruct (tot_int nt k n) as [z Ez]. exists (Z.max p z). split; [lia|].
  intros s [<- | Hs]; [rewrite Ez; apply IZR_le; lia|]. eapply Rle_trans; [apply IH, Hs|]. apply IZR_le. lia.
Qed.

(** The norm of a square-summable solution. *)
Theorem full_norm : forall D src V, (forall n, D n <> C0 -> dom n) -> (forall n, n <> vacuum -> src n = 0%R) ->
  (forall k p, rows_within D src k p) -> norm_le nt dom D V -> norm_le nt dom D (src vacuum / eta).
Proof.
  intros D src V HD HS HR HV k L Hk NL HL. destruct (tot_list k L) as [p [P0 HP]]. set (S := Rsum (map (mass D k) L)).
  assert (T : forall q, 1 <= q -> k <= q -> p <= q -> (eta * (IZR q - IZR (k + p)) * S <= IZR q * src vacuum + flow * V)%R).
  { intros q Hq Hkq Hpq. apply (cone_q D src q HD HS Hq (HR _ _) V HV k p L); [lia|lia|exact NL|]. intros n Hn. destruct (HL n Hn). split; [assumption|]. split; [assumption|]. apply HP, Hn. }
  apply Rmult_le_reg_l with eta; [exact eta_pos|]. replace (eta * (src vacuum / eta))%R with (src vacuum) by (field; lra).
  destruct (Rle_lt_dec (eta * S) (src vacuum)) as [H|H]; [exact H|exfalso].
  set (d := (eta * S - src vacuum)%R). assert (Hd : (0 < d)%R) by (unfold d; lra).
  set (X := ((eta * IZR (k + p) * S + flow * V) / d)%R). destruct (archimed X) as [U _].
  set (q := Z.max (Z.max 1 (k + p)) (up X)). specialize (T q ltac:(unfold q; lia) ltac:(unfold q; lia) ltac:(unfold q; lia)).
  assert (UK : (IZR (up X) <= IZR q)%R) by (apply IZR_le; unfold q; lia).
  assert (F : (IZR q * d <= eta * IZR (k + p) * S + flow * V)%R) by (unfold d; lra).
  assert (G : (X * d = eta * IZR (k + p) * S + flow * V)%R) by (unfold X; field; lra).
  assert (IZR q * d > X * d)%R by (apply Rmult_gt_compat_r; lra). lra.
Qed.

Lemma mass_zero : forall D n k, (mass D k n <= 0)%R -> D n = C0.
Proof.
  intros D n k H. unfold Reach_proofs.mass in H. pose proof (wt_pos nt k n) as W0.
  assert (Q : (0 <= Cnorm2 (D n))%R) by (unfold Cnorm2; pose proof (Rle_0_sqr (Re (D n))); pose proof (Rle_0_sqr (Im (D n))); unfold Rsqr in *; lra).
  assert (Q0 : Cnorm2 (D n) = 0%R). { destruct Q as [Q|Q]; [|auto]. assert (0 < wt nt k n * Cnorm2 (D n))%R by (apply Rmult_lt_0_compat; assumption). lra. }
  unfold Cnorm2 in Q0. pose proof (Rle_0_sqr (Re (D n))) as S1. pose proof (Rle_0_sqr (Im (D n))) as S2. unfold Rsqr in *.
  apply Ceq; cbn; apply Rsqr_0_uniq; unfold Rsqr; lra.
Qed.

(** A square-summable solution without source vanishes. *)
Theorem full_zero : forall D V, (forall n, D n <> C0 -> dom n /\ exists k, inside nt k n) ->
  (forall k p, rows_within D (fun _ => 0%R) k p) -> norm_le nt dom D V -> forall n, D n = C0.
Proof.
  intros D V HD HR HV n. destruct (classic (D n = C0)) as [E|E]; [exact E|]. destruct (HD n E) as [Dn [k Ik]].
  pose proof (full_norm D (fun _ => 0%R) V (fun n H => proj1 (HD n H)) (fun _ _ => eq_refl) HR HV) as Z0.
  specialize (Z0 (Z.max 0 k) [n] ltac:(lia) ltac:(repeat constructor; intros []) ltac:(intros s [<- | []]; split; [exact Dn|apply (inside_mono nt k); [lia|exact Ik]])).
  cbn [map] in Z0. unfold Rsum in Z0. cbn [fold_right] in Z0. unfold Rdiv in Z0. rewrite Rmult_0_l in Z0. apply (mass_zero D n (Z.max 0 k)). lra.
Qed.

(** Two solutions with the same rows for few phonons near the particle. *)
Theorem full_error : forall F F' V V' K P, (forall n, F n <> C0 -> dom n) -> (forall n, F' n <> C0 -> dom n) ->
  norm_le nt dom F V -> norm_le nt dom F' V' -> 1 <= K -> 1 <= P ->
  rows_within (fun n => Csub (F n) (F' n)) (fun _ => 0%R) (K + rho - 1) (P - 1) ->
  (eta * (IZR P * IZR K) * Cnorm2 (Csub (F vacuum) (F' vacuum)) <= (IZR P * drift hop P os + IZR K * push P) * (2 * V + 2 * V'))%R.
Proof.
  intros F F' V V' K P HF HF' NF NF' HK HP HR.
  assert (DC : forall n, Csub (F n) (F' n) <> C0 -> dom n).
  { intros n H. destruct (classic (F n = C0)) as [E|E]; [|apply HF, E]. apply HF'. intros E'. apply H. rewrite E, E'. apply Ceq; unfold Csub, C0, Re, Im; cbn [fst snd]; ring. }
  pose proof (cone_balance _ _ DC (fun _ _ => eq_refl) K P HK HP HR _ (norm_sub F F' V V' NF NF') 0 0 [vacuum] ltac:(lia) ltac:(repeat constructor; intros [])) as B.
  specialize (B ltac:(intros n [<- | []]; split; [exact dom_vacuum|split; [apply inside_vacuum|rewrite tot_vacuum; lra]]) ltac:(lia)).
  rewrite !Z.sub_0_r, (Rmult_comm (IZR K)) in B. rewrite Rmin_left in B by lra. unfold Reach_proofs.mass in B. cbn [map] in B. unfold Rsum in B. cbn [fold_right] in B. rewrite wt_vacuum in B. lra.
Qed.

Theorem full_close : forall F F' V V' q, (forall n, F n <> C0 -> dom n) -> (forall n, F' n <> C0 -> dom n) ->
  norm_le nt dom F V -> norm_le nt dom F' V' -> 1 <= q ->
  rows_within (fun n => Csub (F n) (F' n)) (fun _ => 0%R) (q * (q * q) + rho - 1) (q * q - 1) ->
  forall n k p, dom n -> inside nt k n -> (tot k n <= IZR p)%R -> 0 <= k <= q -> 0 <= p <= q ->
  (eta * (IZR q - IZR (k + p)) * (wt nt k n * Cnorm2 (Csub (F n) (F' n))) <= flow * (2 * V + 2 * V'))%R.
Proof.
  intros F F' V V' q HF HF' NF NF' Hq HR n k p Dn Ik Tn Hk Hp.
  assert (DC : forall n, Csub (F n) (F' n) <> C0 -> dom n).
  { intros s H. destruct (classic (F s = C0)) as [E|E]; [|apply HF, E]. apply HF'. intros E'. apply H. rewrite E, E'. apply Ceq; unfold Csub, C0, Re, Im; cbn [fst snd]; ring. }
  pose proof (cone_q _ _ q DC (fun _ _ => eq_refl) Hq HR _ (norm_sub F F' V V' NF NF') k p [n] Hk Hp ltac:(repeat constructor; intros []) ltac:(intros s [<- | []]; auto)) as B.
  cbn [map] in B. unfold Rsum in B. cbn [fold_right] in B. unfold Reach_proofs.mass in B. lra.
Qed.
End Full.
