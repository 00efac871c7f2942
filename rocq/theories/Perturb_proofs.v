(** The dependence of the Green's function on the parameters (C73). *)
From Coq Require Import String ZArith Reals List Bool Lia Lra Permutation Classical Ring.
From Verif Require Import Base NdArray NdArray_proofs Config Spec Spec_ops Config_proofs Modify_proofs Legal_proofs
  Model Space Spec_space Space_proofs Term Equation System Spec_engine
  Equation_proofs Ring Coef Spec_eom Eom_proofs
  HModel Spec_model Cplx Physics Physics_proofs
  Toeplitz_proofs Weight_proofs Spec_spectral Energy_proofs Spectral_proofs Spec_green Green_proofs Cutoff_proofs Tent_proofs Walk_proofs Reach_proofs Extent_proofs Spec_perturb.
From Verif Require Spec_extent HModel_proofs Exact_proofs Full_proofs Stable_proofs.
Import ListNotations.
Open Scope list_scope.
Open Scope Z_scope.

(** * Solutions with a source everywhere *)
Section Sourced.
Variable nt : nat.
Variable c : Z.
Variable hop kk eta : R.
Hypothesis eta_pos : (0 < eta)%R.
Variable N rho r : Z.
Hypothesis rho_pos : 0 <= rho.
Hypothesis r_pos : 0 <= r.
Variable os os' : list move.
Hypothesis os_perm : Permutation os os'.
Hypothesis os_conj : Forall2 (conj_move c) os os'.
Hypothesis os_fit : forall o, In o os -> fits nt c rho o.
Hypothesis os_short : forall o, In o os -> Z.abs (ahead o) <= r.
Variable cand : placement -> Prop.
Hypothesis cand_range : forall n, cand n -> forall t x, 0 <= n t x <= N.
Variable A1 A2 : R.
Hypothesis windows : forall k, 0 <= k -> exists L, NoDup L /\ (forall n, In n L <-> cand n /\ inside nt k n) /\ (INR (length L) <= A1 * IZR k + A2)%R.
Variable D : placement -> C.
Variable src : placement -> R.
Hypothesis D_cand : forall n, D n <> C0 -> cand n.
Hypothesis D_rows : forall k, balanced nt c hop kk eta os cand D src k.

Lemma chi_le : forall K n, 0 <= K -> (chi nt rho r K n <= IZR K)%R.
Proof. intros K n H. unfold chi. apply IZR_le. pose proof (lev_rho nt rho (K + rho + r + r) n). lia. Qed.

Lemma sourced : forall V Q, norm_le nt cand D V -> (0 <= Q)%R ->
  (forall W M, rho <= W -> NoDup M -> (forall n, In n M -> cand n /\ inside nt W n) -> (Rsum (map (fun n => wt nt (W + r) n * Rabs (src n))%R M) <= Q)%R) ->
  norm_le nt cand D (Q / eta).
Proof.
  intros V Q HV HQ0 HQ k L Hk NL HL. set (S := Rsum (map (mass nt D k) L)).
  assert (S0 : (0 <= S)%R) by (apply Rsum_nonneg; intros; apply mass_pos).
  pose proof (drift_pos nt c hop N rho r os os_fit os_short cand A1 A2 windows) as DP. set (dr := drift hop N os) in *.
  assert (T : forall K, 1 <= K -> k <= K -> (eta * (IZR K - IZR k) * S <= IZR K * Q + dr * V)%R).
  { intros K HK HkK. set (W := K + rho + r + r). set (W1 := K + rho + r). destruct (windows W1 ltac:(unfold W1; lia)) as [M [NM [IM _]]].
    assert (In_W : forall n, In n M -> inside nt W n) by (intros n Hn; apply IM in Hn; apply (inside_mono nt W1); [unfold W, W1; lia|apply Hn]).
    assert (B : (eta * Rsum (map (fun s => chi nt rho r K s * mass nt D W s) M) <= Rsum (map (fun s => chi nt rho r K s * (wt nt W s * src s)) M)
      + Rsum (map (fun o => IZR (Z.abs (ahead o)) * strength_of hop N o) os) / 2 * Rsum (map (mass nt D W) M))%R).
    { apply (balance_in nt c hop kk eta N rho os os' os_perm os_conj os_fit D src (chi nt rho r K) (fun o => IZR (Z.abs (ahead o))) W M); [unfold W; lia|exact NM|exact In_W| |intros o; apply IZR_le; lia| | |].
      - intros n Hn. apply (cand_range n). apply IM, Hn.
      - intros o s Ho Hs Ns. destruct (classic (D (step c o s) = C0)) as [Z0|NZ]; [left; exact Z0|right].
        assert (Cs : cand (step c o s)) by (apply D_cand, NZ). assert (NI : ~ inside nt W1 (step c o s)) by (intros I; apply Ns, IM; split; assumption).
        pose proof (os_short o Ho) as SH. assert (I' : inside nt W (step c o s)).
        { apply (inside_mono nt (W1 + Z.abs (ahead o))); [unfold W, W1; lia|]. apply (inside_step nt c rho); [unfold W1; lia|apply os_fit, Ho|]. apply IM, Hs. }
        split; apply (chi_out nt rho r rho_pos K HK); [apply In_W, Hs| |exact I'|].
        + intros I. apply NI. apply (inside_mono nt (K + rho - 1 + Z.abs (ahead o))); [unfold W1; lia|]. apply (inside_step nt c rho); [lia|apply os_fit, Ho|exact I].
        + intros I. apply NI. apply (inside_mono nt (K + rho - 1)); [unfold W1; lia|exact I].
      - intros s Hs. right. apply (D_rows W1 s); [apply IM, Hs|apply IM, Hs].
      - intros o s Ho Hs Hs'. apply (chi_step nt c rho r rho_pos os os' os_perm os_conj os_fit os_short); [exact Ho|apply In_W, Hs|apply In_W, Hs']. }
    fold (drift hop N os) in B. fold dr in B.
    assert (K0 : (0 <= IZR K)%R) by (apply IZR_le; lia).
    assert (B1 : (Rsum (map (fun s => chi nt rho r K s * (wt nt W s * src s)) M) <= IZR K * Q)%R).
    { eapply Rle_trans; [apply (Rsum_le _ (fun s => IZR K * (wt nt W s * Rabs (src s)))%R)|].
      - intros s _. pose proof (chi_le K s ltac:(lia)) as C1'. pose proof (chi_pos nt rho r K s) as C2'. pose proof (wt_pos nt W s) as W0. pose proof (Rle_abs (src s)) as A. pose proof (Rabs_pos (src s)) as A0.
        apply Rle_trans with (chi nt rho r K s * (wt nt W s * Rabs (src s)))%R; [apply Rmult_le_compat_l; [exact C2'|apply Rmult_le_compat_l; lra]|].
        apply Rmult_le_compat_r; [apply Rmult_le_pos; lra|exact C1'].
      - rewrite Rsum_scal. apply Rmult_le_compat_l; [exact K0|]. apply (HQ W1 M); [unfold W1; lia|exact NM|]. intros n Hn. apply IM, Hn. }
    assert (B2 : (Rsum (map (mass nt D W) M) <= V)%R).
    { rewrite (mass_window nt D W1); [|intros n Hn; apply IM, Hn|unfold W, W1; lia]. apply HV; [unfold W1; lia|exact NM|]. intros n Hn. apply IM, Hn. }
    assert (LOW : (IZR (K - k) * S <= Rsum (map (fun s => chi nt rho r K s * mass nt D W s) M))%R).
    { unfold S. rewrite <- (mass_window nt D k W L) by (try (unfold W; lia); intros n Hn; apply HL, Hn). rewrite <- Rsum_scal. eapply Rle_trans; [apply (Rsum_le _ (fun s => chi nt rho r K s * mass nt D W s)%R)|].
      - intros n Hn. destruct (HL n Hn) as [Cn In_k]. apply Rmult_le_compat_r; [apply mass_pos|]. apply chi_in; [exact rho_pos| |exact In_k|lia]. apply (inside_mono nt k); [unfold W; lia|exact In_k].
      - apply Rsum_incl; [exact NL| |intros; apply Rmult_le_pos; [apply chi_pos|apply mass_pos]].
        intros n Hn. destruct (HL n Hn) as [Cn In_k]. apply IM. split; [exact Cn|]. apply (inside_mono nt k); [unfold W1; lia|exact In_k]. }
    rewrite minus_IZR in LOW. assert (dr * Rsum (map (mass nt D W) M) <= dr * V)%R by (apply Rmult_le_compat_l; assumption).
    assert (eta * ((IZR K - IZR k) * S) <= eta * Rsum (map (fun s => chi nt rho r K s * mass nt D W s) M))%R by (apply Rmult_le_compat_l; lra). lra. }
  apply Rmult_le_reg_l with eta; [exact eta_pos|]. replace (eta * (Q / eta))%R with Q by (field; lra).
  destruct (Rle_lt_dec (eta * S) Q) as [H|H]; [exact H|exfalso].
  set (d := (eta * S - Q)%R). assert (Hd : (0 < d)%R) by (unfold d; lra).
  set (X := ((eta * IZR k * S + dr * V) / d)%R). destruct (archimed X) as [U _].
  set (K := Z.max (Z.max 1 k) (up X)). specialize (T K ltac:(unfold K; lia) ltac:(unfold K; lia)).
  assert (UK : (IZR (up X) <= IZR K)%R) by (apply IZR_le; unfold K; lia).
  assert (F : (IZR K * d <= eta * IZR k * S + dr * V)%R) by (unfold d; lra).
  assert (G : (X * d = eta * IZR k * S + dr * V)%R) by (unfold X; field; lra).
  assert (IZR K * d > X * d)%R by (apply Rmult_gt_compat_r; lra). lra.
Qed.
End Sourced.

(** The least bound on the norm. *)
Lemma norm_lub : forall nt cand D V, norm_le nt cand D V -> exists V0, norm_le nt cand D V0 /\ (0 <= V0)%R /\ forall V', norm_le nt cand D V' -> (V0 <= V')%R.
Proof.
  intros nt cand D V HV.
  set (E := fun x => exists k L, 0 <= k /\ NoDup L /\ (forall n, In n L -> cand n /\ inside nt k n) /\ x = Rsum (map (mass nt D k) L)).
  assert (E0 : E 0%R) by (exists 0, []; split; [lia|]; split; [constructor|]; split; [intros n []|reflexivity]).
  assert (BD : bound E) by (exists V; intros x (k & L & Hk & NL & HL & ->); apply HV; assumption).
  destruct (completeness E BD (ex_intro _ _ E0)) as [V0 [UB LB]]. exists V0. split; [|split].
  - intros k L Hk NL HL. apply UB. exists k, L. auto.
  - apply UB, E0.
  - intros V' HV'. apply LB. intros x (k & L & Hk & NL & HL & ->). apply HV'; assumption.
Qed.

(** * Unit operators *)
Definition unit_weight (c : Z) (o : move) (n : placement) : R := match o with Hop _ => 1%R | Act h => factor c h n 0 end.
Definition unit_size (N : Z) (o : move) : R := match o with Hop _ => 1%R | Act _ => sqrt (IZR N) end.
Definition unit_move (o : move) : move := match o with Hop b => Hop b | Act h => Act (mkHterm (ht_type h) (ht_psi h) (ht_phi h) (ht_dag h) 1%R (ht_index h) (ht_freq h)) end.
Lemma unit_step : forall c o n, step c (unit_move o) n = step c o n.
Proof. intros c [b|h] n; reflexivity. Qed.
Lemma unit_weight_is : forall c o n, weight c 1%R (unit_move o) n = unit_weight c o n.
Proof. intros c [b|h] n; [reflexivity|]. cbn [unit_move weight ht_coupling unit_weight]. unfold factor, mode, phi1, psi1. cbn [ht_dag ht_index ht_phi ht_psi]. ring. Qed.
Lemma unit_conj : forall c o o', conj_move c o o' -> conj_move c (unit_move o) (unit_move o').
Proof. intros c o o' K. destruct K as [b|h h' E1 E2 E3 E4 E5]; [constructor|]. constructor; try assumption. reflexivity. Qed.
Lemma unit_fits : forall nt c rho o, fits nt c rho o -> fits nt c rho (unit_move o).
Proof. intros nt c rho [b|h] H; exact H. Qed.
Lemma unit_size_ge0 : forall N o, (0 <= unit_size N o)%R.
Proof. intros N [b|h]; cbn [unit_size]; [lra|apply sqrt_pos]. Qed.

Lemma unit_pair : forall nt c rho W N o o' n, rho <= W -> fits nt c rho o -> conj_move c o o' -> inside nt W n -> inside nt W (step c o n) ->
  (forall t x, 0 <= n t x <= N) -> (forall t x, 0 <= step c o n t x <= N) ->
  (0 <= unit_weight c o n)%R /\ (wt nt W n * unit_weight c o n = wt nt W (step c o n) * unit_weight c o' (step c o n))%R /\
  (unit_weight c o n * unit_weight c o' (step c o n) <= unit_size N o * unit_size N o)%R.
Proof.
  intros nt c rho W N o o' n HW Fi K I I' P P'.
  pose proof (wt_step nt c 1%R rho W (unit_move o) (unit_move o') n HW (unit_fits _ _ _ _ Fi) (unit_conj _ _ _ K) I) as Q. rewrite !unit_step in Q.
  specialize (Q I' (fun t x => proj1 (P t x)) (fun t x => proj1 (P' t x))). destruct Q as [Q _]. rewrite !unit_weight_is in Q.
  assert (U : (0 <= unit_weight c o n)%R).
  { destruct o as [b|h]; cbn [unit_weight]; [lra|]. unfold factor. destruct (ht_dag h); [lra|]. apply IZR_le. apply P. }
  split; [exact U|]. split; [symmetry; exact Q|]. clear Q.
  assert (N0 : (0 <= IZR N)%R) by (apply IZR_le; specialize (P 0%nat 0); lia).
  destruct K as [b|h h' E1 E2 E3 E4 E5]; cbn [unit_weight unit_size]; [lra|]. rewrite sqrt_sqrt by exact N0. unfold factor. rewrite E3. destruct (ht_dag h); cbn [flip].
  - rewrite Rmult_1_l. apply IZR_le. apply P'.
  - rewrite Rmult_1_r. apply IZR_le. apply P.
Qed.

(** * Two models with the same operators *)
Inductive alike_move : move -> move -> Prop :=
| alike_hop : forall b, alike_move (Hop b) (Hop b)
| alike_act : forall h h', same_place h h' -> alike_move (Act h) (Act h').
Definition gap (hop hop' : R) (p : move * move) : R :=
  match p with (Act h, Act h') => Rabs (ht_coupling h - ht_coupling h') | _ => Rabs (hop - hop') end.

Lemma alike_ahead : forall o o', alike_move o o' -> ahead o' = ahead o.
Proof. intros o o' [b|h h' (E1 & E2 & E3 & E4)]; [reflexivity|]. unfold ahead, target, psi1. rewrite E1. reflexivity. Qed.
Lemma alike_step : forall c o o' n, alike_move o o' -> step c o' n = step c o n.
Proof.
  intros c o o' n K. pose proof (alike_ahead o o' K) as A. unfold step. rewrite A. f_equal. destruct K as [b|h h' (E1 & E2 & E3 & E4)]; [reflexivity|].
  cbn [moved]. unfold after, mode, phi1, psi1. rewrite E1, E2, E3, E4. reflexivity.
Qed.
Lemma alike_weight : forall c hop hop' o o' n, alike_move o o' -> (0 <= unit_weight c o n)%R ->
  (Rabs (weight c hop o n - weight c hop' o' n) = gap hop hop' (o, o') * unit_weight c o n)%R.
Proof.
  intros c hop hop' o o' n K U. destruct K as [b|h h' (E1 & E2 & E3 & E4)]; cbn [weight gap unit_weight] in *; [rewrite Rmult_1_r; reflexivity|].
  replace (factor c h' n 0) with (factor c h n 0) by (unfold factor, mode, phi1, psi1; rewrite E1, E2, E3, E4; reflexivity).
  rewrite <- Rmult_minus_distr_r, Rabs_mult, (Rabs_right (factor c h n 0)) by lra. reflexivity.
Qed.
Lemma gap_pos : forall hop hop' p, (0 <= gap hop hop' p)%R.
Proof. intros hop hop' [[b|h] [b'|h']]; cbn [gap]; apply Rabs_pos. Qed.

Lemma Forall2_in_l : forall {A B} (P : A -> B -> Prop) l l' x, Forall2 P l l' -> In x l -> exists y, In y l' /\ P x y.
Proof.
  intros A B P l l' x FA. induction FA as [|a b l l' H FA IH]; intros Hx; [destruct Hx|]. destruct Hx as [<- | Hx]; [exists b; split; [left; reflexivity|exact H]|].
  destruct (IH Hx) as [y [Hy Py]]. exists y. split; [right; exact Hy|exact Py].
Qed.

Lemma sum_swap : forall {A B} (u : A -> B -> R) (v : A -> R) Y ps M, (forall p, In p ps -> (Rsum (map (u p) M) <= v p * Y)%R) ->
  (Rsum (map (fun n => Rsum (map (fun p => u p n) ps)) M) <= Rsum (map v ps) * Y)%R.
Proof.
  intros A B u v Y ps M. induction ps as [|p ps IH]; intros H.
  - apply Rle_trans with 0%R; [right; transitivity (Rsum (map (fun _ : B => 0%R) M)); [apply Rsum_ext; reflexivity|apply Rsum_0]|]. unfold Rsum. cbn [map fold_right]. lra.
  - rewrite Rsum_cons, Rmult_plus_distr_r. rewrite (Rsum_ext (fun n => Rsum (map (fun q => u q n) (p :: ps))) (fun n => u p n + Rsum (map (fun q => u q n) ps))%R) by (intros n _; apply (Rsum_cons (fun q => u q n))).
    rewrite Rsum_add. apply Rplus_le_compat; [apply (H p), or_introl, eq_refl|apply IH]. intros q Hq. apply H. right. exact Hq.
Qed.

Section Alike.
Variable m m' : model R.
Variable ae c : Z.
Variable k w eta : R.
Hypothesis eta_pos : (0 < eta)%R.
Hypothesis Alike : alike m m'.
Hypothesis G : good_model m ae.
Hypothesis G' : good_model m' ae.
Hypothesis Hlat : on_lattice m c.
Hypothesis Hherm : hermitian (phys_env m k w eta) m.
Hypothesis Hherm' : hermitian (phys_env m' k w eta) m'.
Variable N rho : Z.
Hypothesis N_pos : 0 <= N.
Hypothesis HN : Spec_extent.at_most m ae N.
Hypothesis rho_pos : 0 <= rho.
Hypothesis Hrho : Spec_extent.couples_within m c rho.
Variable Psi Psi' : placement -> Z -> C.
Hypothesis Row : greens_row m ae c k (w, eta) Psi.
Hypothesis Row' : greens_row m' ae c k (w, eta) Psi'.
Let kk := (k * m_lattice m)%R.
Let hop := h_hop (m_ham m).
Let hop' := h_hop (m_ham m').
Let nt := m_ntypes m.
Notation F := (fun n => Psi n 0).
Notation F' := (fun n => Psi' n 0).
Notation cand := (cand m m ae ae).

Lemma alike_space : forall a, space m' ae a <-> space m ae a.
Proof.
  destruct Alike as (_ & E2 & E3 & E4 & E5 & _). intros a. unfold space, model_space. rewrite E2, E3, E4, E5. reflexivity.
Qed.
Lemma alike_lat : on_lattice m' c.
Proof.
  destruct Alike as (_ & _ & _ & _ & _ & _ & FA). unfold on_lattice in *. revert Hlat. clear - FA. induction FA as [|h h' l l' (E1 & E2 & _ & _) FA IH]; intros H x Hx; [destruct Hx|].
  destruct Hx as [<- | Hx]; [|apply IH; [intros y Hy; apply H; right; exact Hy|exact Hx]].
  specialize (H h (or_introl eq_refl)). unfold psi1, phi1 in *. rewrite E1, E2. exact H.
Qed.
Lemma alike_rho : Spec_extent.couples_within m' c rho.
Proof.
  destruct Alike as (_ & _ & _ & _ & _ & _ & FA). unfold Spec_extent.couples_within in *. revert Hrho. clear - FA. induction FA as [|h h' l l' (E1 & E2 & _ & _) FA IH]; intros H x Hx; [destruct Hx|].
  destruct Hx as [<- | Hx]; [|apply IH; [intros y Hy; apply H; right; exact Hy|exact Hx]].
  specialize (H h (or_introl eq_refl)). unfold mode, psi1, phi1 in *. rewrite E1, E2. exact H.
Qed.

Definition pairs : list (move * move) :=
  (Hop true, Hop true) :: (Hop false, Hop false) :: map (fun p => (Act (fst p), Act (snd p))) (combine (h_terms (m_ham m)) (h_terms (m_ham m'))).
Lemma pairs_alike : forall p, In p pairs -> alike_move (fst p) (snd p).
Proof.
  intros p [<- | [<- | Hp]]; [constructor|constructor|]. apply in_map_iff in Hp. destruct Hp as [[h h'] [<- Hp]]. cbn [fst snd]. constructor.
  destruct Alike as (_ & _ & _ & _ & _ & _ & FA). clear - FA Hp. induction FA as [|x x' l l' S FA IH]; [destruct Hp|]. cbn [combine In] in Hp. destruct Hp as [E|Hp]; [injection E as -> ->; exact S|apply IH, Hp].
Qed.
Lemma pairs_moves : map fst pairs = moves m /\ map snd pairs = moves m'.
Proof.
  unfold pairs, moves. cbn [map fst snd]. rewrite !map_map. cbn [fst snd]. destruct Alike as (_ & _ & _ & _ & _ & _ & FA). clear - FA.
  assert (H : map (fun x => Act (fst x)) (combine (h_terms (m_ham m)) (h_terms (m_ham m'))) = map Act (h_terms (m_ham m)) /\ map (fun x => Act (snd x)) (combine (h_terms (m_ham m)) (h_terms (m_ham m'))) = map Act (h_terms (m_ham m'))).
  { induction FA as [|x x' l l' S FA [I1 I2]]; [split; reflexivity|]. cbn [combine map fst snd]. rewrite I1, I2. split; reflexivity. }
  destruct H as [-> ->]. split; reflexivity.
Qed.

Definition step_change : R := Rsum (map (fun p => gap hop hop' p * unit_size N (fst p))%R pairs).
Lemma step_change_is : step_change = (2 * Rabs (hop - hop') + sqrt (IZR N) * coupling_change m m')%R.
Proof.
  unfold step_change, pairs. rewrite !Rsum_cons. cbn [gap fst unit_size]. rewrite map_map. cbn [gap fst unit_size].
  assert (E : Rsum (map (fun x => Rabs (ht_coupling (fst x) - ht_coupling (snd x)) * sqrt (IZR N))%R (combine (h_terms (m_ham m)) (h_terms (m_ham m')))) = (sqrt (IZR N) * coupling_change m m')%R).
  { unfold coupling_change, Rsum. induction (combine (h_terms (m_ham m)) (h_terms (m_ham m'))) as [|p l IH]; cbn [map fold_right]; [lra|]. rewrite IH. lra. }
  rewrite E. lra.
Qed.
Lemma energy_change_pos : (0 <= energy_change m m')%R.
Proof.
  unfold energy_change. pose proof (gm_pn _ _ G) as P. assert (H : forall t, In t (seq 0 (m_ntypes m)) -> (0 <= IZR (nth t (m_pn m) 0%Z))%R).
  { intros t Ht. apply in_seq in Ht. specialize (P t ltac:(lia)). apply IZR_le. lia. }
  induction (seq 0 (m_ntypes m)) as [|t l IH]; cbn [fold_right]; [lra|]. pose proof (H t (or_introl eq_refl)) as Ht. pose proof (Rabs_pos (nth t (h_freqs (m_ham m)) 0%R - nth t (h_freqs (m_ham m')) 0%R)) as A.
  pose proof (Rmult_le_pos _ _ A Ht). specialize (IH (fun t' Hi => H t' (or_intror Hi))). lra.
Qed.
Lemma step_change_pos : (0 <= step_change)%R.
Proof. apply Rsum_nonneg. intros p _. apply Rmult_le_pos; [apply gap_pos|apply unit_size_ge0]. Qed.
Lemma change_is : change m m' N = (energy_change m m' + step_change)%R.
Proof. rewrite step_change_is. unfold change, hop, hop'. lra. Qed.
Lemma change_pos : (0 <= change m m' N)%R.
Proof. rewrite change_is. pose proof energy_change_pos. pose proof step_change_pos. lra. Qed.

Lemma energies : forall a l l', space m ae a -> energy_of (h_freqs (m_ham m)) a l -> energy_of (h_freqs (m_ham m')) a l' ->
  (Rabs (phonon_energy l - phonon_energy l') <= energy_change m m')%R.
Proof.
  intros a l l' Sa El El'. destruct (space_unfold m ae a Sa) as (V & _ & _ & Nt & _ & _ & _ & _ & _ & L3). destruct Alike as (_ & E2 & _).
  rewrite (Exact_proofs.energy_sum m a l (gm_freqs _ _ G) Nt El), (Exact_proofs.energy_sum m' a l' (gm_freqs _ _ G')); [|rewrite E2; exact Nt|exact El'].
  rewrite E2. unfold energy_change.
  assert (H : forall t, In t (seq 0 (m_ntypes m)) -> (0 <= IZR (total_type a t) <= IZR (nth t (m_pn m) 0%Z))%R).
  { intros t Ht. apply in_seq in Ht. specialize (L3 t ltac:(lia)). split; [|apply IZR_le; exact L3]. apply IZR_le. pose proof (occ_type a t [0] V ltac:(lia)). pose proof (valid_nonneg a V (Z.of_nat t :: [0])). unfold occ in *. lia. }
  clear - H. induction (seq 0 (m_ntypes m)) as [|t q IH]; [unfold Rsum; cbn [map fold_right]; rewrite Rminus_0_r, Rabs_R0; lra|].
  rewrite !Rsum_cons. cbn [fold_right]. specialize (IH (fun t' Hi => H t' (or_intror Hi))). specialize (H t (or_introl eq_refl)).
  set (A := Rsum _) in *. set (B := Rsum (map (fun t0 => nth t0 (h_freqs (m_ham m')) 0 * _)%R q)) in *. set (f := nth t (h_freqs (m_ham m)) 0%R). set (f' := nth t (h_freqs (m_ham m')) 0%R). set (x := IZR (total_type a t)) in *.
  replace (f * x + A - (f' * x + B))%R with ((f - f') * x + (A - B))%R by ring. eapply Rle_trans; [apply Rabs_triang|]. rewrite Rabs_mult, (Rabs_right x) by lra.
  pose proof (Rabs_pos (f - f')) as P. pose proof (Rmult_le_compat_l _ _ _ P (proj2 H)). lra.
Qed.

(** ** The difference of the solutions *)
Notation D := (fun n => Csub (F n) (F' n)).
Notation dsrc := (fun n => (eta * Cnorm2 (Csub (Psi n 0) (Psi' n 0)) + Rsum (map (fun o => cur c hop kk D o n) (moves m)))%R).

Lemma cand_F : forall n, F n <> C0 -> cand n.
Proof. intros n H. destruct (F_support m ae c k w eta Psi Row n H) as [-> | [a [s [Sa ->]]]]; [left; reflexivity|right]. exists a, s. split; [left; exact Sa|reflexivity]. Qed.
Lemma cand_F' : forall n, F' n <> C0 -> cand n.
Proof. intros n H. destruct (F_support m' ae c k w eta Psi' Row' n H) as [-> | [a [s [Sa ->]]]]; [left; reflexivity|right]. exists a, s. split; [left; apply alike_space, Sa|reflexivity]. Qed.
Lemma cand_D : forall n, D n <> C0 -> cand n.
Proof.
  intros n H. destruct (classic (F n = C0)) as [E|E]; [|apply cand_F, E]. apply cand_F'. intros E'. apply H. cbv beta in *. rewrite E, E'. ring.
Qed.

Lemma Cabs_list : forall {A} (f : A -> C) l, (Cabs (Csum_list (map f l)) <= Rsum (map (fun x => Cabs (f x)) l))%R.
Proof.
  intros A f l. induction l as [|x l IH]; [unfold Rsum; cbn [map fold_right]; change (Csum_list []) with C0; rewrite Cabs_0; lra|].
  rewrite Rsum_cons. cbn [map Csum_list fold_right]. eapply Rle_trans; [apply Cabs_triangle|]. unfold Csum_list in IH. lra.
Qed.
Lemma Cabs_real : forall x, Cabs (RtoC x) = Rabs x.
Proof. intros x. unfold Cabs, Cnorm2, RtoC, Re, Im. cbn [fst snd]. rewrite Rmult_0_l, Rplus_0_r. apply sqrt_Rsqr_abs. Qed.

Lemma src_row : forall n E E' s, row_at c hop kk w eta (moves m) F n E s -> row_at c hop' kk w eta (moves m') F' n E' s -> (forall t x, 0 <= n t x) ->
  (Rabs (dsrc n) <= Cabs (D n) * (Rabs (E - E') * Cabs (F' n) + Rsum (map (fun p => gap hop hop' p * unit_weight c (fst p) n * Cabs (F' (step c (fst p) n)))%R pairs)))%R.
Proof.
  intros n E E' s R1 R2 Pn. set (s' := Cadd (Csub (Cmul (w, eta) (F' n)) (Cmul (RtoC E) (F' n))) (Csum_list (map (term_at c hop kk F' n) (moves m)))).
  pose proof (row_balance c hop kk w eta (moves m) _ n E _ (row_sub c hop kk w eta (moves m) F F' n E s s' R1 eq_refl)) as B. cbv beta in B |- *. rewrite B. clear B.
  eapply Rle_trans; [apply Im_abs_le|]. rewrite Cabs_mul, Cabs_conj. apply Rmult_le_compat_l; [apply Cabs_ge0|].
  assert (X : Csub s s' = Csub (Cmul (RtoC (E - E')) (F' n)) (Csum_list (map (fun p => Csub (term_at c hop kk F' n (fst p)) (term_at c hop' kk F' n (snd p))) pairs))).
  { rewrite (Csum_list_sub (fun p => term_at c hop kk F' n (fst p)) (fun p => term_at c hop' kk F' n (snd p))).
    rewrite <- (map_map fst (term_at c hop kk F' n)), <- (map_map snd (term_at c hop' kk F' n)). destruct pairs_moves as [-> ->].
    unfold row_at in R2. rewrite <- R2. unfold s'. cbv beta. set (A := Csum_list _). set (A' := Csum_list _). set (f := Psi' n 0).
    replace (RtoC (E - E')) with (Csub (RtoC E) (RtoC E')) by (apply Ceq; unfold Csub, RtoC, Re, Im; cbn [fst snd]; ring). ring. }
  rewrite X. clear X R1 R2. replace (Csub (Cmul (RtoC (E - E')) (F' n)) (Csum_list (map (fun p => Csub (term_at c hop kk F' n (fst p)) (term_at c hop' kk F' n (snd p))) pairs)))
    with (Cadd (Cmul (RtoC (E - E')) (F' n)) (Csum_list (map (fun p => Cmul (RtoC (- (1))) (Csub (term_at c hop kk F' n (fst p)) (term_at c hop' kk F' n (snd p)))) pairs))).
  2:{ rewrite Csum_list_scal. set (A := Csum_list _). set (f := Cmul _ _). replace (RtoC (- (1))) with (Copp C1) by (apply Ceq; unfold RtoC, Copp, C1, Re, Im; cbn [fst snd]; ring). ring. }
  eapply Rle_trans; [apply Cabs_triangle|]. rewrite Cabs_mul, Cabs_real. apply Rplus_le_compat_l. eapply Rle_trans; [apply Cabs_list|]. apply Rsum_le. intros [o o'] Hp. cbn [fst snd].
  pose proof (pairs_alike _ Hp) as K. cbn [fst snd] in K. unfold term_at. rewrite (alike_step c o o' n K), (alike_ahead o o' K).
  set (f := Psi' (step c o n) 0). rewrite Cabs_mul, Cabs_real, Rabs_Ropp, Rabs_R1, Rmult_1_l.
  replace (Csub (Cmul (RtoC (weight c hop o n)) (Cmul (phase kk (ahead o)) f)) (Cmul (RtoC (weight c hop' o' n)) (Cmul (phase kk (ahead o)) f)))
    with (Cmul (RtoC (weight c hop o n - weight c hop' o' n)) (Cmul (phase kk (ahead o)) f)).
  2:{ replace (RtoC (weight c hop o n - weight c hop' o' n)) with (Csub (RtoC (weight c hop o n)) (RtoC (weight c hop' o' n))) by (apply Ceq; unfold Csub, RtoC, Re, Im; cbn [fst snd]; ring). ring. }
  rewrite !Cabs_mul, phase_abs, Rmult_1_l, Cabs_real, (alike_weight c hop hop' o o' n K); [right; reflexivity|].
  destruct o as [b|h]; cbn [unit_weight]; [lra|]. unfold factor. destruct (ht_dag h); [lra|]. apply IZR_le. apply Pn.
Qed.

Lemma src_abs : forall n, cand n ->
  (Rabs (dsrc n) <= energy_change m m' * (Cabs (D n) * Cabs (F' n)) + Rsum (map (fun p => gap hop hop' p * (unit_weight c (fst p) n * (Cabs (F' (step c (fst p) n)) * Cabs (D n))))%R pairs))%R.
Proof.
  intros n Cn. assert (Pn : forall t x, 0 <= n t x) by (intros t x; apply (cand_range m m ae ae eq_refl N N_pos HN HN n Cn)).
  assert (K : exists E E' s, row_at c hop kk w eta (moves m) F n E s /\ row_at c hop' kk w eta (moves m') F' n E' s /\ (Rabs (E - E') <= energy_change m m')%R).
  { pose proof Alike as (E1 & _). destruct Cn as [-> | [a [s [Sa ->]]]].
    - exists 0%R, 0%R, C1. split; [exact (row_vac m ae c k w eta Psi Row)|]. split; [|rewrite Rminus_0_r, Rabs_R0; apply energy_change_pos].
      pose proof (row_vac m' ae c k w eta Psi' Row') as R2. rewrite E1 in R2. exact R2.
    - assert (Sm : space m ae a) by (destruct Sa; assumption). assert (Sm' : space m' ae a) by (apply alike_space, Sm).
      destruct (energy_list m ae G a Sm) as [l El]. destruct (energy_list m' ae G' a Sm') as [l' El']. exists (phonon_energy l), (phonon_energy l'), C0.
      split; [exact (row_cloud m ae c k w eta Psi Row a l s Sm El)|]. split; [|exact (energies a l l' Sm El El')].
      pose proof (row_cloud m' ae c k w eta Psi' Row' a l' s Sm' El') as R2. rewrite E1 in R2. exact R2. }
  destruct K as (E & E' & s & R1 & R2 & HE). eapply Rle_trans; [apply (src_row n E E' s R1 R2 Pn)|]. cbv beta.
  pose proof (Cabs_ge0 (Csub (Psi n 0) (Psi' n 0))) as A. pose proof (Cabs_ge0 (Psi' n 0)) as B. set (d := Cabs (Csub (Psi n 0) (Psi' n 0))) in *. set (f := Cabs (Psi' n 0)) in *.
  rewrite Rmult_plus_distr_l, <- Rsum_scal. apply Rplus_le_compat.
  - rewrite <- !Rmult_assoc, (Rmult_comm d). apply Rmult_le_compat_r; [exact B|]. apply Rmult_le_compat_r; assumption.
  - apply Rsum_le. intros p _. right. ring.
Qed.

Lemma image_mass : forall V' o o' W r M, norm_le nt cand F' V' -> conj_move c o o' -> fits nt c rho o -> Z.abs (ahead o) <= r -> 0 <= r -> rho <= W -> NoDup M -> (forall n, In n M -> cand n /\ inside nt W n) ->
  (Rsum (map (fun n => mass nt F' (W + r) (step c o n)) M) <= V')%R.
Proof.
  intros V' o o' W r M HV K Fi Sh R0 HW NM IM.
  destruct (sub_list (fun n => F' (step c o n) <> C0) M NM) as [M1 [N1 [I1 Q1]]]. rewrite Q1.
  2:{ intros n _ H. unfold mass. destruct (classic (Psi' (step c o n) 0 = C0)) as [-> |E]; [|contradiction]. unfold Cnorm2, C0, Re, Im. cbn [fst snd]. ring. }
  rewrite <- (map_map (step c o) (mass nt F' (W + r))). apply HV; [lia| |].
  - apply NoDup_map_on; [|exact N1]. intros x y _ _ E. rewrite <- (step_conj c o o' x K), <- (step_conj c o o' y K), E. reflexivity.
  - intros n Hn. apply in_map_iff in Hn. destruct Hn as [q [<- Hq]]. apply I1 in Hq. destruct Hq as [Hq NZ]. split; [apply cand_F', NZ|].
    apply (inside_mono nt (W + Z.abs (ahead o))); [lia|]. apply (inside_step nt c rho); [exact HW|exact Fi|apply IM, Hq].
Qed.

Lemma source_sum : forall V V' lam r, (0 < lam)%R -> 0 <= r -> (forall o, In o (moves m) -> Z.abs (ahead o) <= r) -> norm_le nt cand D V -> norm_le nt cand F' V' ->
  forall W M, rho <= W -> NoDup M -> (forall n, In n M -> cand n /\ inside nt W n) ->
  (Rsum (map (fun n => wt nt (W + r) n * Rabs (dsrc n))%R M) <= change m m' N * (lam / 2 * V + / (2 * lam) * V'))%R.
Proof.
  intros V V' lam r Hl R0 Sh HV HV' W M HW NM IM. set (X := W + r).
  assert (IX : forall n, In n M -> inside nt X n) by (intros n Hn; apply (inside_mono nt W); [unfold X; lia|apply IM, Hn]).
  assert (HI : (0 < / (2 * lam))%R) by (apply Rinv_0_lt_compat; lra).
  assert (SV : (Rsum (map (mass nt D X) M) <= V)%R) by (apply HV; [unfold X; lia|exact NM|intros n Hn; split; [apply IM, Hn|apply IX, Hn]]).
  assert (SV' : (Rsum (map (mass nt F' X) M) <= V')%R) by (apply HV'; [unfold X; lia|exact NM|intros n Hn; split; [apply IM, Hn|apply IX, Hn]]).
  assert (P1 : (Rsum (map (fun n => energy_change m m' * (wt nt X n * (Cabs (D n) * Cabs (F' n)))) M) <= energy_change m m' * (lam / 2 * V + / (2 * lam) * V'))%R).
  { rewrite Rsum_scal. apply Rmult_le_compat_l; [apply energy_change_pos|].
    eapply Rle_trans; [apply (Rsum_le _ (fun n => lam / 2 * mass nt D X n + / (2 * lam) * mass nt F' X n)%R)|].
    - intros n Hn. unfold mass. rewrite <- !Cabs_sq. pose proof (Cabs_ge0 (D n)) as A. pose proof (Cabs_ge0 (F' n)) as B. pose proof (wt_pos nt X n) as W0.
      pose proof (Stable_proofs.amgm (Cabs (D n)) (Cabs (F' n)) (wt nt X n) (wt nt X n) 1 1 1 lam A B W0 W0 ltac:(lra) ltac:(lra) ltac:(lra) ltac:(lra) Hl) as Q. lra.
    - rewrite Rsum_add, !Rsum_scal. apply Rplus_le_compat; apply Rmult_le_compat_l; try assumption; lra. }
  assert (P2 : forall p, In p pairs -> (Rsum (map (fun n => gap hop hop' p * (wt nt X n * (unit_weight c (fst p) n * (Cabs (F' (step c (fst p) n)) * Cabs (D n))))) M) <= gap hop hop' p * unit_size N (fst p) * (lam / 2 * V + / (2 * lam) * V'))%R).
  { intros [o o1] Hp. cbn [fst]. rewrite Rsum_scal, Rmult_assoc. apply Rmult_le_compat_l; [apply gap_pos|].
    assert (Ho : In o (moves m)) by (destruct pairs_moves as [<- _]; apply (in_map fst _ (o, o1)), Hp).
    destruct (moves_conj m m c k w eta Hlat eq_refl Hherm) as [l [_ Fl]]. destruct (Forall2_in_l _ _ _ _ Fl Ho) as [o' [_ K]].
    pose proof (moves_fit m ae c G rho Hrho o Ho) as Fi.
    eapply Rle_trans; [apply (Rsum_le _ (fun n => unit_size N o * (lam / 2 * mass nt D X n + / (2 * lam) * mass nt F' X (step c o n)))%R)|].
    - intros n Hn. unfold mass. rewrite <- !Cabs_sq. pose proof (Cabs_ge0 (D n)) as A. pose proof (Cabs_ge0 (F' (step c o n))) as B. pose proof (wt_pos nt X n) as W0. pose proof (wt_pos nt X (step c o n)) as W1.
      pose proof (unit_size_ge0 N o) as U0.
      destruct (classic (F' (step c o n) = C0)) as [E|E].
      + cbv beta in E |- *. rewrite E, Cabs_0. rewrite !Rmult_0_l, !Rmult_0_r, Rplus_0_r. apply Rmult_le_pos; [exact U0|]. apply Rmult_le_pos; [lra|]. apply Rmult_le_pos; [lra|]. cbv beta in A. apply Rmult_le_pos; exact A.
      + pose proof (cand_F' _ E) as Cs. assert (Is : inside nt X (step c o n)).
        { apply (inside_mono nt (W + Z.abs (ahead o))); [specialize (Sh o Ho); unfold X; lia|]. apply (inside_step nt c rho); [exact HW|exact Fi|apply IM, Hn]. }
        destruct (unit_pair nt c rho X N o o' n ltac:(unfold X; lia) Fi K (IX n Hn) Is) as (U1 & U2 & U3); [intros t x; apply (cand_range m m ae ae eq_refl N N_pos HN HN n), IM, Hn|intros t x; apply (cand_range m m ae ae eq_refl N N_pos HN HN _ Cs)|].
        pose proof (Stable_proofs.amgm (Cabs (D n)) (Cabs (F' (step c o n))) (wt nt X n) (wt nt X (step c o n)) _ _ (unit_size N o) lam A B W0 W1 U1 U2 U3 U0 Hl) as Q. lra.
    - rewrite Rsum_scal. apply Rmult_le_compat_l; [apply unit_size_ge0|]. rewrite Rsum_add, !Rsum_scal.
      pose proof (image_mass V' o o' W r M HV' K Fi (Sh o Ho) R0 HW NM IM) as IMG. fold X in IMG. apply Rplus_le_compat; apply Rmult_le_compat_l; try assumption; lra. }
  eapply Rle_trans; [apply (Rsum_le _ (fun n => energy_change m m' * (wt nt X n * (Cabs (D n) * Cabs (F' n))) + Rsum (map (fun p => gap hop hop' p * (wt nt X n * (unit_weight c (fst p) n * (Cabs (F' (step c (fst p) n)) * Cabs (D n))))) pairs))%R)|].
  - intros n Hn. pose proof (src_abs n (proj1 (IM n Hn))) as S. pose proof (wt_pos nt X n) as W0. eapply Rle_trans; [apply Rmult_le_compat_l; [lra|exact S]|].
    rewrite Rmult_plus_distr_l, <- Rsum_scal. apply Rplus_le_compat; [right; ring|]. apply Rsum_le. intros p _. right. ring.
  - rewrite Rsum_add, change_is, Rmult_plus_distr_r. apply Rplus_le_compat; [exact P1|]. unfold step_change.
    apply (sum_swap (fun p n => gap hop hop' p * (wt nt X n * (unit_weight c (fst p) n * (Cabs (F' (step c (fst p) n)) * Cabs (D n)))))%R); exact P2.
Qed.

Theorem parameter_error : (eta * eta * Cabs (Csub (Psi vacuum 0%Z) (Psi' vacuum 0%Z)) <= change m m' N)%R.
Proof.
  pose proof Alike as (E1 & E2 & _). destruct (moves_conj m m c k w eta Hlat eq_refl Hherm) as [l [Pl Fl]]. destruct (moves_short m m eq_refl) as [r [R0 Hr]].
  destruct (cand_windows m m ae ae G G eq_refl) as [A1 [A2 [P1 [P2 HW]]]].
  pose proof (norm_F m m ae ae c k w eta eta_pos G G Hlat eq_refl Hherm N rho N_pos HN HN rho_pos Hrho m ae Psi G eq_refl eq_refl (fun a H => or_introl H) Row) as NF.
  assert (HN' : Spec_extent.at_most m' ae N) by (intros a t x Sa; apply HN, alike_space, Sa).
  pose proof (norm_F m' m' ae ae c k w eta eta_pos G' G' alike_lat eq_refl Hherm' N rho N_pos HN' HN' rho_pos alike_rho m' ae Psi' G' eq_refl eq_refl (fun a H => or_introl H) Row') as NF'.
  rewrite E2 in NF'. fold nt in NF, NF'.
  assert (NF2 : norm_le nt cand F' (1 / (eta * eta))).
  { intros j L Hj NL HL. apply NF'; [exact Hj|exact NL|]. intros n Hn. destruct (HL n Hn) as [Cn In_n]. split; [|exact In_n].
    destruct Cn as [-> | [a [s [Sa ->]]]]; [left; reflexivity|right]. exists a, s. split; [left; apply alike_space; destruct Sa; assumption|reflexivity]. }
  set (V' := (1 / (eta * eta))%R) in *.
  assert (ND : norm_le nt cand D (2 * V' + 2 * V')).
  { intros j L Hj NL HL. eapply Rle_trans; [apply (Rsum_le _ (fun n => 2 * mass nt F j n + 2 * mass nt F' j n)%R)|].
    - intros n _. unfold mass. pose proof (wt_pos nt j n) as W0.
      assert (Cnorm2 (Csub (Psi n 0%Z) (Psi' n 0%Z)) <= 2 * Cnorm2 (Psi n 0%Z) + 2 * Cnorm2 (Psi' n 0%Z))%R
        by (unfold Cnorm2, Csub, Re, Im; cbn [fst snd]; pose proof (Rle_0_sqr (fst (Psi n 0%Z) + fst (Psi' n 0%Z))); pose proof (Rle_0_sqr (snd (Psi n 0%Z) + snd (Psi' n 0%Z))); unfold Rsqr in *; lra).
      assert (wt nt j n * Cnorm2 (Csub (Psi n 0%Z) (Psi' n 0%Z)) <= wt nt j n * (2 * Cnorm2 (Psi n 0%Z) + 2 * Cnorm2 (Psi' n 0%Z)))%R by (apply Rmult_le_compat_l; lra). lra.
    - rewrite Rsum_add, !Rsum_scal. pose proof (NF j L Hj NL HL). pose proof (NF2 j L Hj NL HL). lra. }
  destruct (norm_lub nt cand D _ ND) as [V0 [HV0 [V0p Least]]].
  assert (E0 : (0 < eta * eta)%R) by (apply Rmult_lt_0_compat; lra).
  assert (VP : (0 < V')%R) by (unfold V'; apply Rdiv_lt_0_compat; lra).
  assert (NEXT : forall lam, (0 < lam)%R -> (eta * V0 <= change m m' N * (lam / 2 * V0 + / (2 * lam) * V'))%R).
  { intros lam Hl. pose proof change_pos as CP. set (Q := (change m m' N * (lam / 2 * V0 + / (2 * lam) * V'))%R).
    assert (HI : (0 < / (2 * lam))%R) by (apply Rinv_0_lt_compat; lra).
    assert (Q0 : (0 <= Q)%R) by (unfold Q; apply Rmult_le_pos; [exact CP|]; apply Rplus_le_le_0_compat; apply Rmult_le_pos; lra).
    pose proof (sourced nt c hop kk eta eta_pos N rho r rho_pos R0 (moves m) l Pl Fl (moves_fit m ae c G rho Hrho) Hr cand (cand_range m m ae ae eq_refl N N_pos HN HN) A1 A2 HW
      D dsrc cand_D (fun k n _ _ => eq_refl) V0 Q HV0 Q0 (source_sum V0 V' lam r Hl R0 Hr HV0 NF2)) as S.
    apply Least in S. assert (eta * V0 <= eta * (Q / eta))%R by (apply Rmult_le_compat_l; lra). replace (eta * (Q / eta))%R with Q in H by (field; lra). exact H. }
  set (A := change m m' N) in *. pose proof change_pos as AP. fold A in AP.
  assert (DV : (Cnorm2 (Csub (Psi vacuum 0%Z) (Psi' vacuum 0%Z)) <= V0)%R).
  { pose proof (HV0 0 [vacuum] ltac:(lia) ltac:(repeat constructor; intros []) ltac:(intros n [<- | []]; split; [left; reflexivity|apply inside_vacuum])) as S0.
    unfold mass in S0. cbn [map] in S0. unfold Rsum in S0. cbn [fold_right] in S0. rewrite wt_vacuum, Rmult_1_l, Rplus_0_r in S0. exact S0. }
  assert (FIN : (eta * eta * (eta * eta) * V0 <= A * A)%R).
  { destruct (Req_dec A 0) as [Z0|NZ].
    - pose proof (NEXT 1%R ltac:(lra)) as H. rewrite Z0, Rmult_0_l in H. rewrite Z0. assert (V0 <= 0)%R by (apply Rmult_le_reg_l with eta; lra).
      assert (EV : V0 = 0%R) by lra. rewrite EV. lra.
    - pose proof (NEXT (eta / A)%R ltac:(apply Rdiv_lt_0_compat; lra)) as H.
      replace (A * (eta / A / 2 * V0 + / (2 * (eta / A)) * V'))%R with (eta * V0 / 2 + A * A * V' / (2 * eta))%R in H by (field; lra).
      assert (H2 : (eta * V0 <= A * A * V' / eta)%R) by (replace (A * A * V' / eta)%R with (2 * (A * A * V' / (2 * eta)))%R by (field; lra); lra).
      assert (H3 : (eta * eta * eta * (eta * V0) <= eta * eta * eta * (A * A * V' / eta))%R) by (apply Rmult_le_compat_l; [|exact H2]; left; apply Rmult_lt_0_compat; lra).
      replace (eta * eta * eta * (A * A * V' / eta))%R with (A * A)%R in H3 by (unfold V'; field; lra). lra. }
  apply Rsqr_incr_0; [|apply Rmult_le_pos; [lra|apply Cabs_ge0]|exact AP]. unfold Rsqr. set (d := Csub _ _) in *.
  replace (eta * eta * Cabs d * (eta * eta * Cabs d))%R with (eta * eta * (eta * eta) * (Cabs d * Cabs d))%R by ring. rewrite Cabs_sq.
  eapply Rle_trans; [|exact FIN]. apply Rmult_le_compat_l; [left; apply Rmult_lt_0_compat; assumption|exact DV].
Qed.
End Alike.
