(** How much of a bounded solution on the infinite chain can depend on clouds
    that reach far from the particle (used for C65). *)
From Coq Require Import String ZArith Reals List Bool Lia Lra Permutation Classical.
From Verif Require Import Base NdArray_proofs Model HModel Cplx Physics Physics_proofs Toeplitz_proofs Weight_proofs Spec_eom
  Spec_spectral Energy_proofs Spec_green Cutoff_proofs Tent_proofs Walk_proofs.
Import ListNotations.
Open Scope list_scope.
Open Scope Z_scope.

Section Reach.
Variable nt : nat.
Variable c : Z.
Variable hop kk eta : R.
Hypothesis eta_pos : (0 < eta)%R.
Variable N rho r : Z.
Hypothesis N_pos : 0 <= N.
Hypothesis rho_pos : 0 <= rho.
Hypothesis r_pos : 0 <= r.
Variable os os' : list move.
Hypothesis os_perm : Permutation os os'.
Hypothesis os_conj : Forall2 (conj_move c) os os'.
Hypothesis os_fit : forall o, In o os -> fits nt c rho o.
Hypothesis os_short : forall o, In o os -> Z.abs (ahead o) <= r.

Notation step := (step c).
Notation cur := (cur c hop kk).

Definition mass (D : placement -> C) (W : Z) (n : placement) : R := (wt nt W n * Cnorm2 (D n))%R.

Lemma mass_pos : forall D W n, (0 <= mass D W n)%R.
Proof. intros D W n. unfold mass. apply Rmult_le_pos; [left; apply wt_pos|]. unfold Cnorm2. pose proof (Rle_0_sqr (Re (D n))). pose proof (Rle_0_sqr (Im (D n))). unfold Rsqr in *. lra. Qed.

Lemma strength_pos : forall o, (0 <= strength_of hop N o)%R.
Proof. intros [b|h]; cbn [strength_of]; [apply Rabs_pos|]. apply Rmult_le_pos; [apply sqrt_pos|apply Rabs_pos]. Qed.

Lemma conj_in : forall o, In o os -> exists o', In o' os /\ conj_move c o o'.
Proof.
  assert (G : forall l l', Forall2 (conj_move c) l l' -> forall o, In o l -> exists o', In o' l' /\ conj_move c o o').
  { intros l l' F. induction F as [|x y l l' H F IH]; intros o Ho; [destruct Ho|]. destruct Ho as [-> | Ho]; [exists y; split; [left; reflexivity|exact H]|].
    destruct (IH o Ho) as [o' [H1 H2]]. exists o'. split; [right; exact H1|exact H2]. }
  intros o Ho. destruct (G os os' os_conj o Ho) as [o' [H1 H2]]. exists o'. split; [|exact H2]. apply (Permutation_in o' (Permutation_sym os_perm) H1).
Qed.

(** The balance of the norm seen through a weight [chi] that varies slowly. *)
Lemma balance_in : forall D (src : placement -> R) (chi : placement -> R) (mv : move -> R) W M, rho <= W -> NoDup M ->
  (forall n, In n M -> inside nt W n) -> (forall n, In n M -> forall t x, 0 <= n t x <= N) -> (forall o, (0 <= mv o)%R) ->
  (forall o s, In o os -> In s M -> ~ In (step o s) M -> D (step o s) = C0 \/ chi s = 0%R /\ chi (step o s) = 0%R) ->
  (forall s, In s M -> chi s = 0%R \/ (eta * Cnorm2 (D s) + Rsum (map (fun o => cur D o s) os) = src s)%R) ->
  (forall o s, In o os -> In s M -> In (step o s) M -> (Rabs (chi s - chi (step o s)) <= mv o)%R) ->
  (eta * Rsum (map (fun s => chi s * mass D W s) M) <= Rsum (map (fun s => chi s * (wt nt W s * src s)) M)
      + Rsum (map (fun o => mv o * strength_of hop N o) os) / 2 * Rsum (map (mass D W) M))%R.
Proof.
  intros D src chi mv W M HW NM In_W RG MV OUT ROWS SLOW.
  assert (CUR0 : forall o s, D (step o s) = C0 -> cur D o s = 0%R).
  { intros o s E. unfold Walk_proofs.cur. rewrite E. unfold Cmul, C0, Cconj, RtoC, Re, Im. cbn [fst snd]. ring. }
  set (st := fun (p : {o : move | In o os}) (s : placement) => step (proj1_sig p) s).
  set (ff := fun (p : {o : move | In o os}) (s : placement) => (wt nt W s * cur D (proj1_sig p) s)%R).
  assert (LIFT : forall l, (forall o, In o l -> In o os) -> exists lp : list {o : move | In o os}, map (@proj1_sig _ _) lp = l).
  { induction l as [|o l IH]; intros H; [exists []; reflexivity|]. destruct IH as [lp E]; [intros q Hq; apply H; right; exact Hq|].
    exists (exist _ o (H o (or_introl eq_refl)) :: lp). cbn [map proj1_sig]. rewrite E. reflexivity. }
  destruct (LIFT os (fun o H => H)) as [ps Eps].
  assert (LIFT' : exists ps', Permutation ps ps' /\ Forall2 (conj_move c) (map (@proj1_sig _ _) ps) (map (@proj1_sig _ _) ps')).
  { assert (PP : Permutation (map (@proj1_sig _ _) ps) os') by (rewrite Eps; exact os_perm).
    destruct (Permutation_map_inv _ _ (Permutation_sym PP)) as [ps' [E1 E2]]. exists ps'. split; [exact E2|]. rewrite Eps, <- E1. exact os_conj. }
  destruct LIFT' as [ps' [PP FF]].
  assert (ADJ : forall p p', conj_move c (proj1_sig p) (proj1_sig p') -> adj M st ff p p').
  { intros [o Ho] [o' Ho'] Kc s Hs Hs'. cbn [proj1_sig] in Kc. unfold st, ff in *. cbn [proj1_sig] in *. split; [apply (step_conj c o o' s Kc)|].
    apply (cur_conj nt c hop kk D rho W o o' s); [exact HW|apply os_fit, Ho|exact Kc|apply In_W, Hs|apply In_W, Hs'| |].
    - intros t x. apply (RG s Hs).
    - intros t x. apply (RG (step o s) Hs'). }
  pose proof (tent_balance M NM st ff chi (mass D W) (fun s _ => mass_pos D W s)) as TB.
  specialize (TB ltac:(intros [o Ho] s Hs Ns; unfold st, ff in *; cbn [proj1_sig] in *; destruct (OUT o s Ho Hs Ns) as [Z0|[-> ->]]; [rewrite (CUR0 o s Z0); lra|lra])).
  specialize (TB (fun p => mv (proj1_sig p)) (fun p => strength_of hop N (proj1_sig p)) ltac:(intros p; apply MV) ltac:(intros p; apply strength_pos)).
  specialize (TB eta (fun s => wt nt W s * src s)%R ps ps').
  rewrite <- Eps. rewrite map_map. apply TB; [|exact PP| |].
  - intros s Hs. destruct (ROWS s Hs) as [-> | <-]; [lra|].
    unfold ff, mass. rewrite (Rsum_scal (fun p => cur D (proj1_sig p) s)).
    rewrite <- (map_map (@proj1_sig _ _) (fun o => cur D o s)), Eps. ring.
  - clear - FF ADJ os_perm. revert ps' FF. induction ps as [|p ps IH]; intros [|p' ps'] FF; cbn [map] in FF; inversion FF; subst; constructor.
    + split; apply ADJ; [assumption|apply conj_sym; assumption].
    + apply IH. assumption.
  - intros [o Ho] _ s Hs Hs'. unfold st, ff in *. cbn [proj1_sig] in *. split; [apply SLOW; assumption|].
    destruct (conj_in o Ho) as [o' [_ Kc]].
    apply (cur_size nt c hop kk D rho W N o o' s); [exact HW|apply os_fit, Ho|exact Kc|apply In_W, Hs|apply In_W, Hs'|exact (RG s Hs)|exact (RG (step o s) Hs')].
Qed.

Lemma inside_vacuum : forall k, inside nt k vacuum.
Proof. intros k t x H. exfalso. apply H. reflexivity. Qed.

(** A tent over the particle: its height is the distance left to [K + rho] sites. *)
Section Chi.
Variable K : Z.
Hypothesis K_pos : 1 <= K.
Let W := K + rho + r + r.
Definition chi (n : placement) : R := IZR (Z.max 0 (K + rho - lev nt rho W n)).

Lemma chi_pos : forall n, (0 <= chi n)%R.
Proof. intros n. apply IZR_le. lia. Qed.

Lemma chi_step : forall o n, In o os -> inside nt W n -> inside nt W (step o n) -> (Rabs (chi n - chi (step o n)) <= IZR (Z.abs (ahead o)))%R.
Proof.
  intros o n Ho I I'. destruct (conj_in o Ho) as [o' [Ho' Kc]].
  assert (G : forall q s, In q os -> inside nt W s -> inside nt W (step q s) -> lev nt rho W (step q s) <= lev nt rho W s + Z.abs (ahead q)).
  { intros q s Hq J J'. pose proof (lev_rho nt rho W s) as LR. apply lev_le; [lia|exact J'|]. apply (inside_step nt c rho); [exact LR|apply os_fit, Hq|].
    apply (lev_le nt rho W s); [lia|exact J|lia]. }
  pose proof (G o n Ho I I') as G1. pose proof (G o' (step o n) Ho' I' ltac:(rewrite (step_conj c o o' n Kc); exact I)) as G2.
  rewrite (step_conj c o o' n Kc), (ahead_conj c o o' Kc) in G2. unfold chi. rewrite <- minus_IZR, <- abs_IZR. apply IZR_le. lia.
Qed.

Lemma chi_out : forall n, inside nt W n -> ~ inside nt (K + rho - 1) n -> chi n = 0%R.
Proof.
  intros n I H. unfold chi. replace (Z.max 0 (K + rho - lev nt rho W n)) with 0; [reflexivity|].
  assert (~ lev nt rho W n <= K + rho - 1) by (intros L; apply H; apply (lev_le nt rho W); [lia|exact I|exact L]). lia.
Qed.

Lemma chi_in : forall n k, inside nt W n -> inside nt k n -> 0 <= k -> (IZR (K - k) <= chi n)%R.
Proof.
  intros n k I H P. unfold chi. apply IZR_le. assert (lev nt rho W n <= rho + k) by (apply lev_le; [lia|exact I|apply (inside_mono nt k); [lia|exact H]]). lia.
Qed.

Lemma chi_vacuum : chi vacuum = IZR K.
Proof.
  unfold chi. f_equal. assert (lev nt rho W vacuum <= rho) by (apply lev_le; [lia|apply inside_vacuum|apply inside_vacuum]). pose proof (lev_rho nt rho W vacuum). lia.
Qed.
End Chi.

Variable cand : placement -> Prop.
Hypothesis cand_vacuum : cand vacuum.
Hypothesis cand_range : forall n, cand n -> forall t x, 0 <= n t x <= N.
Variable A1 A2 : R.
Hypothesis A1_pos : (0 <= A1)%R.
Hypothesis A2_pos : (0 <= A2)%R.
Hypothesis windows : forall k, 0 <= k -> exists L, NoDup L /\ (forall n, In n L <-> cand n /\ inside nt k n) /\ (INR (length L) <= A1 * IZR k + A2)%R.

Definition balanced (D : placement -> C) (src : placement -> R) (k : Z) : Prop :=
  forall n, cand n -> inside nt k n -> (eta * Cnorm2 (D n) + Rsum (map (fun o => cur D o n) os) = src n)%R.
Definition drift : R := (Rsum (map (fun o => IZR (Z.abs (ahead o)) * strength_of hop N o) os) / 2)%R.




Lemma drift_pos : (0 <= drift)%R.
Proof. unfold drift. enough (0 <= Rsum (map (fun o => IZR (Z.abs (ahead o)) * strength_of hop N o) os))%R by lra. apply Rsum_nonneg. intros o _. apply Rmult_le_pos; [apply IZR_le; lia|apply strength_pos]. Qed.


Section One.
Variable D : placement -> C.
Variable src : placement -> R.
Hypothesis D_cand : forall n, D n <> C0 -> cand n.
Hypothesis src_vacuum : forall n, n <> vacuum -> src n = 0%R.
Variable K : Z.
Hypothesis K_pos : 1 <= K.
Hypothesis D_rows : balanced D src (K + rho - 1).

Let W := K + rho + r + r.
Notation chi := (chi K).

Lemma single : forall (f : placement -> R) L, NoDup L -> In vacuum L -> (forall n, n <> vacuum -> f n = 0%R) -> Rsum (map f L) = f vacuum.
Proof.
  intros f L ND. induction ND as [|n L N1 N2 IH]; intros I Z0; [destruct I|]. rewrite Rsum_cons. destruct (classic (n = vacuum)) as [-> | Nn].
  - rewrite (Rsum_ext f (fun _ => 0%R)); [rewrite Rsum_0; lra|]. intros s Hs. apply Z0. intros ->. contradiction.
  - destruct I as [E|I]; [contradiction|]. rewrite (Z0 n Nn), IH by assumption. lra.
Qed.

(** The balance of the norm in the tent. *)
Lemma tent : forall V,
  (forall L, NoDup L -> (forall n, In n L <-> cand n /\ inside nt (K + rho + r) n) -> Rsum (map (mass D W) L) <= V)%R ->
  forall k L, 0 <= k <= K -> NoDup L -> (forall n, In n L -> cand n /\ inside nt k n) ->
  (eta * IZR (K - k) * Rsum (map (mass D W) L) <= IZR K * src vacuum + drift * V)%R.
Proof.
  intros V HV k L Hk NL HL. destruct (windows (K + rho + r) ltac:(lia)) as [M [NM [IM _]]]. specialize (HV M NM IM).
  assert (In_W : forall n, In n M -> inside nt W n) by (intros n Hn; apply IM in Hn; apply (inside_mono nt (K + rho + r)); [unfold W; lia|apply Hn]).
  assert (Vac : In vacuum M) by (apply IM; split; [exact cand_vacuum|apply inside_vacuum]).
  assert (T : (eta * Rsum (map (fun s => chi s * mass D W s) M) <= Rsum (map (fun s => chi s * (wt nt W s * src s)) M)
      + Rsum (map (fun o => IZR (Z.abs (ahead o)) * strength_of hop N o) os) / 2 * Rsum (map (mass D W) M))%R).
  { assert (OUT : forall o s, In o os -> In s M -> ~ In (step o s) M -> D (step o s) = C0 \/ chi s = 0%R /\ chi (step o s) = 0%R).
    { intros o s Ho Hs Ns. destruct (classic (D (step o s) = C0)) as [Z0|NZ]; [left; exact Z0|right].
      assert (Cs : cand (step o s)) by (apply D_cand, NZ). assert (NI : ~ inside nt (K + rho + r) (step o s)) by (intros I; apply Ns, IM; split; assumption).
      pose proof (os_short o Ho) as SH. assert (I' : inside nt W (step o s)).
      { apply (inside_mono nt (K + rho + r + Z.abs (ahead o))); [unfold W; lia|]. apply (inside_step nt c rho); [lia|apply os_fit, Ho|]. apply IM, Hs. }
      split; apply (chi_out K K_pos); [apply In_W, Hs| |exact I'|].
      - intros I. apply NI. apply (inside_mono nt (K + rho - 1 + Z.abs (ahead o))); [lia|]. apply (inside_step nt c rho); [lia|apply os_fit, Ho|exact I].
      - intros I. apply NI. apply (inside_mono nt (K + rho - 1)); [lia|exact I]. }
    apply (balance_in D src chi (fun o => IZR (Z.abs (ahead o))) W M); [unfold W; lia|exact NM|exact In_W| |intros o; apply IZR_le; lia|exact OUT| |].
    - intros n Hn. apply (cand_range n). apply IM, Hn.
    - intros s Hs. destruct (classic (inside nt (K + rho - 1) s)) as [I|NI]; [right; apply (D_rows s (proj1 (proj1 (IM s) Hs)) I)|left; apply (chi_out K K_pos s (In_W s Hs) NI)].
    - intros o s Ho Hs Hs'. apply chi_step; [exact Ho|apply In_W, Hs|apply In_W, Hs']. }
  fold drift in T. rewrite (single (fun s => chi s * (wt nt W s * src s))%R M NM Vac) in T by (intros n Hn; rewrite (src_vacuum n Hn); ring).
  rewrite (chi_vacuum K K_pos), wt_vacuum, Rmult_1_l in T.
  assert (LOW : (IZR (K - k) * Rsum (map (mass D W) L) <= Rsum (map (fun s => chi s * mass D W s) M))%R).
  { rewrite <- Rsum_scal. eapply Rle_trans; [apply (Rsum_le _ (fun s => chi s * mass D W s)%R)|].
    - intros n Hn. destruct (HL n Hn) as [Cn In_k]. apply Rmult_le_compat_r; [apply mass_pos|]. apply chi_in; [|exact In_k|lia]. apply (inside_mono nt k); [unfold W; lia|exact In_k].
    - apply Rsum_incl; [exact NL| |intros; apply Rmult_le_pos; [apply chi_pos|apply mass_pos]].
      intros n Hn. destruct (HL n Hn) as [Cn In_k]. apply IM. split; [exact Cn|]. apply (inside_mono nt k); [lia|exact In_k]. }
  pose proof drift_pos as DP. assert (drift * Rsum (map (mass D W) M) <= drift * V)%R by (apply Rmult_le_compat_l; assumption).
  assert (eta * (IZR (K - k) * Rsum (map (mass D W) L)) <= eta * Rsum (map (fun s => chi s * mass D W s) M))%R by (apply Rmult_le_compat_l; lra).
  lra.
Qed.
End One.

(** Total norm of a bounded solution. *)
Definition norm_le (D : placement -> C) (V : R) : Prop :=
  forall k L, 0 <= k -> NoDup L -> (forall n, In n L -> cand n /\ inside nt k n) -> (Rsum (map (mass D k) L) <= V)%R.

Lemma mass_window : forall D k W L, (forall n, In n L -> inside nt k n) -> k <= W -> Rsum (map (mass D W) L) = Rsum (map (mass D k) L).
Proof.
  intros D k W L H HW. apply Rsum_ext. intros n Hn. unfold mass. f_equal. apply wt_window; [apply (inside_mono nt k); [exact HW|]|]; apply H, Hn.
Qed.

Section Bounded.
Variable D : placement -> C.
Variable src : placement -> R.
Hypothesis D_cand : forall n, D n <> C0 -> cand n.
Hypothesis src_vacuum : forall n, n <> vacuum -> src n = 0%R.
Hypothesis D_rows : forall k, balanced D src k.
Variable B : R.
Hypothesis D_bounded : forall n, (Cnorm2 (D n) <= B)%R.

Lemma first_pass : exists V, norm_le D V.
Proof.
  assert (B0 : (0 <= B)%R) by (eapply Rle_trans; [|apply (D_bounded vacuum)]; unfold Cnorm2; pose proof (Rle_0_sqr (Re (D vacuum))); pose proof (Rle_0_sqr (Im (D vacuum))); unfold Rsqr in *; lra).
  exists ((2 * Rabs (src vacuum) + drift * (B * (A1 * (2 + IZR (rho + r)) + A2))) / eta)%R. intros k L Hk NL HL.
  set (q := Z.max 1 k). assert (Hq : 1 <= q /\ k <= q) by (unfold q; lia).
  pose proof (tent D src D_cand src_vacuum (2 * q) ltac:(lia) (D_rows _) (B * (A1 * IZR (2 * q + rho + r) + A2))%R) as T.
  assert (Tq := fun H => T H q L ltac:(lia) NL ltac:(intros n Hn; destruct (HL n Hn); split; [assumption|apply (inside_mono nt k); [lia|assumption]])).
  clear T. assert (HB : (forall L0, NoDup L0 -> (forall n, In n L0 <-> cand n /\ inside nt (2 * q + rho + r) n) ->
     Rsum (map (mass D (2 * q + rho + r + r)) L0) <= B * (A1 * IZR (2 * q + rho + r) + A2))%R).
  { intros M NM IM. destruct (windows (2 * q + rho + r) ltac:(lia)) as [M' [NM' [IM' LM']]].
    eapply Rle_trans; [apply (Rsum_le _ (fun _ => B))|].
    - intros n _. unfold mass. pose proof (wt_le1 nt (2 * q + rho + r + r) n) as W1. pose proof (wt_pos nt (2 * q + rho + r + r) n) as W0. pose proof (D_bounded n) as Bn.
      assert (wt nt (2 * q + rho + r + r) n * Cnorm2 (D n) <= wt nt (2 * q + rho + r + r) n * B)%R by (apply Rmult_le_compat_l; lra).
      assert (wt nt (2 * q + rho + r + r) n * B <= 1 * B)%R by (apply Rmult_le_compat_r; lra). lra.
    - rewrite Rsum_const. assert (LE : (length M <= length M')%nat) by (apply NoDup_incl_length; [exact NM|intros n Hn; apply IM', IM, Hn]). apply le_INR in LE.
      rewrite Rmult_comm. apply Rmult_le_compat_l; lra. }
  specialize (Tq HB). clear HB. rewrite (mass_window D k) in Tq by (try lia; intros n Hn; apply HL, Hn).
  replace (2 * q - q) with q in Tq by lia. set (S := Rsum (map (mass D k) L)) in *.
  assert (Q1 : (1 <= IZR q)%R) by (apply IZR_le; lia). pose proof drift_pos as DP.
  apply Rmult_le_reg_l with (eta * IZR q)%R; [apply Rmult_lt_0_compat; lra|]. eapply Rle_trans; [exact Tq|].
  replace (eta * IZR q * ((2 * Rabs (src vacuum) + drift * (B * (A1 * (2 + IZR (rho + r)) + A2))) / eta))%R
    with (2 * IZR q * Rabs (src vacuum) + drift * (B * (A1 * (2 * IZR q + IZR q * IZR (rho + r)) + IZR q * A2)))%R by (field; lra).
  rewrite mult_IZR. apply Rplus_le_compat.
  - apply Rmult_le_compat_l; [lra|apply Rle_abs].
  - apply Rmult_le_compat_l; [exact DP|]. apply Rmult_le_compat_l; [exact B0|]. apply Rplus_le_compat.
    + apply Rmult_le_compat_l; [exact A1_pos|]. rewrite <- Z.add_assoc, plus_IZR, mult_IZR. assert (0 <= IZR (rho + r))%R by (apply IZR_le; lia).
      assert (1 * IZR (rho + r) <= IZR q * IZR (rho + r))%R by (apply Rmult_le_compat_r; lra). lra.
    + assert (1 * A2 <= IZR q * A2)%R by (apply Rmult_le_compat_r; lra). lra.
Qed.

Lemma second_pass : norm_le D (src vacuum / eta).
Proof.
  destruct first_pass as [V HV]. intros k L Hk NL HL. set (S := Rsum (map (mass D k) L)).
  assert (S0 : (0 <= S)%R) by (apply Rsum_nonneg; intros; apply mass_pos).
  assert (T : forall K, 1 <= K -> k <= K -> (eta * (IZR K - IZR k) * S <= IZR K * src vacuum + drift * V)%R).
  { intros K HK HkK. pose proof (tent D src D_cand src_vacuum K HK (D_rows _) V) as T.
    assert (HW : (forall L0, NoDup L0 -> (forall n, In n L0 <-> cand n /\ inside nt (K + rho + r) n) -> Rsum (map (mass D (K + rho + r + r)) L0) <= V)%R).
    { intros M NM IM. rewrite (mass_window D (K + rho + r)); [|intros n Hn; apply IM, Hn|lia]. apply HV; [lia|exact NM|]. intros n Hn. apply IM, Hn. }
    specialize (T HW k L ltac:(lia) NL HL). rewrite (mass_window D k) in T by (try lia; intros n Hn; apply HL, Hn). rewrite minus_IZR in T. exact T. }
  apply Rmult_le_reg_l with eta; [exact eta_pos|]. replace (eta * (src vacuum / eta))%R with (src vacuum) by (field; lra).
  destruct (Rle_lt_dec (eta * S) (src vacuum)) as [H|H]; [exact H|exfalso].
  set (d := (eta * S - src vacuum)%R). assert (Hd : (0 < d)%R) by (unfold d; lra).
  set (X := ((eta * IZR k * S + drift * V) / d)%R). destruct (archimed X) as [U _].
  set (K := Z.max (Z.max 1 k) (up X)). specialize (T K ltac:(unfold K; lia) ltac:(unfold K; lia)).
  assert (UK : (IZR (up X) <= IZR K)%R) by (apply IZR_le; unfold K; lia).
  assert (F : (IZR K * d <= eta * IZR k * S + drift * V)%R) by (unfold d; lra).
  assert (G : (X * d = eta * IZR k * S + drift * V)%R) by (unfold X; field; lra).
  assert (IZR K * d > X * d)%R by (apply Rmult_gt_compat_r; lra). lra.
Qed.
End Bounded.

(** Two solutions whose rows agree within [K + rho] sites of the particle. *)
Theorem reach : forall F F' f0 f0' K V V',
  (forall n, F n <> C0 -> cand n) -> (forall n, F' n <> C0 -> cand n) -> norm_le F V -> norm_le F' V' ->
  F vacuum = f0 -> F' vacuum = f0' -> 1 <= K ->
  balanced (fun n => Csub (F n) (F' n)) (fun _ => 0%R) (K + rho - 1) ->
  (eta * IZR K * Cnorm2 (Csub f0 f0') <= drift * (2 * V + 2 * V'))%R.
Proof.
  intros F F' f0 f0' K V V' HF HF' NF NF' <- <- HK HB.
  assert (DC : forall n, Csub (F n) (F' n) <> C0 -> cand n).
  { intros n H. destruct (classic (F n = C0)) as [E|E]; [|apply HF, E]. apply HF'. intros E'. apply H. rewrite E, E'. apply Ceq; unfold Csub, C0, Re, Im; cbn [fst snd]; ring. }
  pose proof (tent _ _ DC (fun _ _ => eq_refl) K HK HB (2 * V + 2 * V')%R) as T.
  specialize (T ltac:(
    intros M NM IM; rewrite (mass_window _ (K + rho + r)) by (try lia; intros n Hn; apply IM, Hn);
    eapply Rle_trans; [apply (Rsum_le _ (fun n => 2 * mass F (K + rho + r) n + 2 * mass F' (K + rho + r) n)%R)|];
    [intros n _; unfold mass; pose proof (wt_pos nt (K + rho + r) n) as W0;
     assert (Cnorm2 (Csub (F n) (F' n)) <= 2 * Cnorm2 (F n) + 2 * Cnorm2 (F' n))%R
       by (unfold Cnorm2, Csub, Re, Im; cbn [fst snd]; pose proof (Rle_0_sqr (fst (F n) + fst (F' n))); pose proof (Rle_0_sqr (snd (F n) + snd (F' n))); unfold Rsqr in *; lra);
     assert (wt nt (K + rho + r) n * Cnorm2 (Csub (F n) (F' n)) <= wt nt (K + rho + r) n * (2 * Cnorm2 (F n) + 2 * Cnorm2 (F' n)))%R by (apply Rmult_le_compat_l; lra); lra
    |rewrite Rsum_add, !Rsum_scal;
     pose proof (NF (K + rho + r) M ltac:(lia) NM (fun n Hn => proj1 (IM n) Hn)); pose proof (NF' (K + rho + r) M ltac:(lia) NM (fun n Hn => proj1 (IM n) Hn)); lra])).
  specialize (T 0 [vacuum] ltac:(lia) ltac:(repeat constructor; intros []) ltac:(intros n [<- | []]; split; [exact cand_vacuum|apply inside_vacuum])).
  rewrite Z.sub_0_r in T. unfold mass in T. cbn [map] in T. unfold Rsum in T. cbn [fold_right] in T. rewrite wt_vacuum in T. lra.
Qed.
End Reach.
