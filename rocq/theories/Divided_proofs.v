(** Divided differences of the Green's function in the complex frequency (C86):
    n + 1 distinct frequencies with Im z >= y give at most 1 / y^(n+1). *)
From Coq Require Import String ZArith Reals List Bool Lia Lra Permutation Classical Ring.
From Verif Require Import Base NdArray NdArray_proofs Config Spec Spec_ops Config_proofs Modify_proofs Legal_proofs
  Model Space Spec_space Space_proofs Term Equation System Spec_engine
  Equation_proofs Ring Coef Spec_eom Eom_proofs
  HModel Spec_model Cplx Physics Physics_proofs
  Toeplitz_proofs Weight_proofs Spec_spectral Energy_proofs Spectral_proofs Spec_green Green_proofs Cutoff_proofs Tent_proofs Walk_proofs Reach_proofs Extent_proofs Perturb_proofs Holo_proofs Spec_blur.
From Verif Require Spec_extent Stable_proofs.
Import ListNotations.
Open Scope list_scope.
Open Scope Z_scope.

Lemma Csub_nz : forall a b : C, a <> b -> Csub a b <> C0.
Proof. intros a b H E. apply H. replace a with (Cadd (Csub a b) b) by ring. rewrite E. ring. Qed.

Section States.
Variable m : model R.
Variable ae c : Z.
Variable k : R.
Hypothesis G : good_model m ae.
Hypothesis Hlat : on_lattice m c.
Hypothesis Hherm : forall w eta, hermitian (phys_env m k w eta) m.
Variable N rho : Z.
Hypothesis N_pos : 0 <= N.
Hypothesis HN : Spec_extent.at_most m ae N.
Hypothesis rho_pos : 0 <= rho.
Hypothesis Hrho : Spec_extent.couples_within m c rho.
Let kk := (k * m_lattice m)%R.
Let hop := h_hop (m_ham m).
Let nt := m_ntypes m.
Notation cand := (cand m m ae ae).
Variable Psi : C -> placement -> Z -> C.
Variable dom : C -> Prop.
Variable y0 : R.
Hypothesis Hy : (0 < y0)%R.
Hypothesis dom_pos : forall p, dom p -> (y0 <= snd p)%R.
Hypothesis Row : forall p, dom p -> greens_row m ae c k p (Psi p).

Definition state (l : list C) (a : C) (n : placement) : C := divided (fun p => Psi p n 0) l a.

Lemma state_cand : forall l a n, dom a -> (forall b, In b l -> dom b) -> state l a n <> C0 -> cand n.
Proof.
  induction l as [|b l IH]; intros a n Da Dl H.
  - destruct a as [w eta]. destruct (F_support m ae c k w eta (Psi (w, eta)) (Row _ Da) n H) as [-> | [q [s [Sa ->]]]]; [left; reflexivity|right]. exists q, s. split; [left; exact Sa|reflexivity].
  - assert (Dl' : forall b, In b l -> dom b) by (intros; apply Dl; right; assumption).
    destruct (classic (state l a n = C0)) as [E|E]; [|exact (IH a n Da Dl' E)]. apply (IH b n (Dl b (or_introl eq_refl)) Dl'). intros E'. apply H. unfold state in *. cbn [divided]. rewrite E, E'. ring.
Qed.

Definition source (s : C) (n : placement) (l : list C) : C := match l with [] => s | b :: l => Copp (state l b n) end.

Lemma state_row : forall n, cand n -> exists E s, forall l a, dom a -> (forall b, In b l -> dom b) -> NoDup (a :: l) ->
  row_at c hop kk (fst a) (snd a) (moves m) (state l a) n E (source s n l).
Proof.
  intros n Cn.
  destruct (F_row m ae c k G (fun w eta => Psi (w, eta)) (fun w eta => dom (w, eta)) ltac:(intros w eta H; exact (Row _ H)) n Cn) as [E [s Hs]].
  exists E, s. induction l as [|b l IH]; intros a Da Dl ND.
  - cbn [source]. destruct a as [w eta]. exact (Hs w eta Da).
  - assert (Dl' : forall b, In b l -> dom b) by (intros; apply Dl; right; assumption).
    inversion_clear ND as [|? ? Na ND']. assert (NDb := ND'). inversion_clear ND' as [|? ? Nb NDl].
    assert (Nab : a <> b) by (intros ->; apply Na; left; reflexivity).
    pose proof (IH a Da Dl' ltac:(constructor; [intros I; apply Na; right; exact I|exact NDl])) as A. pose proof (IH b (Dl b (or_introl eq_refl)) Dl' NDb) as B.
    pose proof (row_shift c hop kk (fst a) (snd a) (fst b) (snd b) (moves m) (state l b) n E _ B) as B'.
    pose proof (row_scal c hop kk (fst a) (snd a) (moves m) _ n E _ (Cinv (Csub a b)) (row_sub c hop kk (fst a) (snd a) (moves m) _ _ n E _ _ A B')) as X.
    cbn [source]. set (t := source s n l) in *. rewrite <- !surjective_pairing in X.
    replace (Cmul (Cinv (Csub a b)) (Csub t (Cadd t (Cmul (Csub a b) (state l b n))))) with (Copp (state l b n)) in X; [exact X|].
    pose proof (Cinv_l _ (Csub_nz _ _ Nab)) as I. set (d := Csub a b) in *. set (i := Cinv d) in *. set (v := state l b n) in *.
    replace (Cmul i (Csub t (Cadd t (Cmul d v)))) with (Copp (Cmul (Cmul i d) v)) by ring. rewrite I. ring.
Qed.

Lemma q_pos : (0 < 1 / (y0 * y0))%R.
Proof. apply Rdiv_lt_0_compat; [lra|nra]. Qed.

Lemma state_norm : forall l a, dom a -> (forall b, In b l -> dom b) -> NoDup (a :: l) -> norm_le nt cand (state l a) ((1 / (y0 * y0)) ^ S (length l))%R.
Proof.
  induction l as [|b l IH]; intros a Da Dl ND; pose proof (dom_pos a Da) as Pa.
  - destruct a as [w eta]. cbn [snd] in Pa. eapply norm_mono; [|exact (F_norm m ae c k G Hlat Hherm N rho N_pos HN rho_pos Hrho (fun w eta => Psi (w, eta)) (fun w eta => dom (w, eta)) ltac:(intros w' eta' H; pose proof (dom_pos _ H) as X; cbn in X; lra) ltac:(intros w' eta' H; exact (Row _ H)) w eta Da)].
    cbn [length pow]. rewrite Rmult_1_r. unfold Rdiv. rewrite !Rmult_1_l. apply Rinv_le_contravar; nra.
  - assert (Dl' : forall b, In b l -> dom b) by (intros; apply Dl; right; assumption). pose proof (Dl b (or_introl eq_refl)) as Db.
    inversion_clear ND as [|? ? Na ND']. assert (NDb := ND'). inversion_clear ND' as [|? ? Nb NDl].
    assert (NDa : NoDup (a :: l)) by (constructor; [intros I; apply Na; right; exact I|exact NDl]).
    assert (ND2 : NoDup (a :: b :: l)) by (constructor; assumption).
    pose proof (IH a Da Dl' NDa) as A. pose proof (IH b Db Dl' NDb) as B. pose proof q_pos as q0.
    set (V := ((1 / (y0 * y0)) ^ S (length l))%R) in *. assert (V0 : (0 < V)%R) by (apply pow_lt; exact q0).
    eapply norm_mono; [|apply (resolvent_bound m ae c k G Hlat Hherm N rho N_pos HN rho_pos Hrho (fst a) (snd a) (state (b :: l) a) (fun n => Copp (state l b n)) (Cnorm2 (Cinv (Csub a b)) * (2 * V + 2 * V))%R V)].
    + cbn [length]. change ((1 / (y0 * y0)) ^ S (S (length l)))%R with (1 / (y0 * y0) * V)%R. unfold Rdiv. rewrite Rmult_1_l, Rmult_comm. apply Rmult_le_compat_r; [lra|]. apply Rinv_le_contravar; nra.
    + lra.
    + intros n. apply state_cand; [exact Da|exact Dl].
    + change (state (b :: l) a) with (fun n => Cmul (Cinv (Csub a b)) (Csub (state l a n) (state l b n))). apply norm_scal, norm_sub; assumption.
    + replace V with (Cnorm2 (Copp C1) * V)%R by (unfold Cnorm2, Copp, C1, Re, Im; cbn [fst snd]; ring).
      intros j L Hj NL HL. pose proof (norm_scal nt cand (state l b) (Copp C1) V B j L Hj NL HL) as X. eapply Rle_trans; [|exact X]. right. apply Rsum_ext. intros n _. unfold mass. do 2 f_equal. ring.
    + intros n Cn. destruct (state_row n Cn) as [E [s H]]. exists E. exact (H (b :: l) a Da Dl ND2).
Qed.

Lemma state_value : forall l a, dom a -> (forall b, In b l -> dom b) -> NoDup (a :: l) -> (Cabs (state l a vacuum) <= (/ y0) ^ S (length l))%R.
Proof.
  intros l a Da Dl ND. pose proof (norm_vacuum nt cand _ _ ltac:(left; reflexivity) (state_norm l a Da Dl ND)) as B.
  assert (P : (0 < / y0)%R) by (apply Rinv_0_lt_compat; exact Hy).
  apply Rsqr_incr_0; [|apply Cabs_ge0|left; apply pow_lt; exact P]. unfold Rsqr. rewrite Cabs_sq. eapply Rle_trans; [exact B|]. right.
  rewrite <- Rpow_mult_distr. f_equal. field. lra.
Qed.
End States.

Section Points.
Variable m : model R.
Variable ae c : Z.
Variable k : R.
Hypothesis G : good_model m ae.
Hypothesis Hlat : on_lattice m c.
Hypothesis Hherm : forall w eta, hermitian (phys_env m k w eta) m.
Variable g : C -> C.
Hypothesis Val : forall p, (0 < snd p)%R -> exists Psi, greens_row m ae c k p Psi /\ g p = Psi vacuum 0.

Lemma rows_of : forall l : list C, (forall p, In p l -> (0 < snd p)%R) -> exists Psi : C -> placement -> Z -> C, forall p, In p l -> greens_row m ae c k p (Psi p) /\ g p = Psi p vacuum 0.
Proof.
  induction l as [|a l IH]; intros H; [exists (fun _ _ _ => C0); intros p []|].
  destruct IH as [Psi HP]; [intros p I; apply H; right; exact I|]. destruct (Val a (H a (or_introl eq_refl))) as [Pa [Ra Ea]].
  exists (fun p => if Cdec p a then Pa else Psi p). intros p I. destruct (Cdec p a) as [-> |D]; [split; assumption|]. destruct I as [-> |I]; [contradiction|]. exact (HP p I).
Qed.

Lemma divided_ext : forall f h l a, (forall p, In p (a :: l) -> f p = h p) -> divided f l a = divided h l a.
Proof.
  intros f h. induction l as [|b l IH]; intros a H; cbn [divided]; [apply H; left; reflexivity|].
  rewrite (IH a), (IH b); [reflexivity| |]; intros p I; apply H; [right; exact I|destruct I as [-> |I]; [left; reflexivity|right; right; exact I]].
Qed.

Theorem divided_bound : forall y0 l a, (0 < y0)%R -> NoDup (a :: l) -> (forall p, In p (a :: l) -> (y0 <= snd p)%R) -> (Cabs (divided g l a) <= (/ y0) ^ S (length l))%R.
Proof.
  intros y0 l a Hy ND HP. destruct (rows_of (a :: l)) as [Psi HPsi]; [intros p I; specialize (HP p I); lra|].
  destruct (Extent_proofs.couples_ex m c) as [rho [R0 CW]]. destruct (occupied m ae k Hherm) as [N [N0 HN]].
  rewrite (divided_ext g (fun p : C => Psi p vacuum 0) l a) by (intros p I; apply (proj2 (HPsi p I))).
  exact (state_value m ae c k G Hlat Hherm N rho N0 HN R0 CW Psi (fun p => In p (a :: l)) y0 Hy HP (fun p I => proj1 (HPsi p I)) l a (or_introl eq_refl) (fun b I => or_intror I) ND).
Qed.
End Points.
