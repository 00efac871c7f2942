(** Pick matrices of the Green's function are positive (C76). *)
From Coq Require Import String ZArith Reals List Bool Lia Lra Permutation Classical Ring.
From Verif Require Import Base NdArray NdArray_proofs Config Spec Spec_ops Config_proofs Modify_proofs Legal_proofs
  Model Space Spec_space Space_proofs Term Equation System Spec_engine
  Equation_proofs Ring Coef Spec_eom Eom_proofs
  HModel Spec_model Cplx Physics Physics_proofs
  Toeplitz_proofs Weight_proofs Spec_spectral Energy_proofs Spectral_proofs Spec_green Green_proofs Cutoff_proofs Tent_proofs Walk_proofs Reach_proofs Extent_proofs Perturb_proofs Holo_proofs Spec_pick.
From Verif Require Spec_extent Band_proofs Moments_proofs.
Import ListNotations.
Open Scope list_scope.
Open Scope Z_scope.

Lemma Csum_cons : forall {A} (f : A -> C) x l, Csum_list (map f (x :: l)) = Cadd (f x) (Csum_list (map f l)).
Proof. reflexivity. Qed.
Lemma Csum_add : forall {A} (f g : A -> C) l, Csum_list (map (fun x => Cadd (f x) (g x)) l) = Cadd (Csum_list (map f l)) (Csum_list (map g l)).
Proof. intros A f g l. induction l as [|x l IH]; [apply Ceq; cbn; ring|]. rewrite !Csum_cons, IH. ring. Qed.
Lemma Csum_ext : forall {A} (f g : A -> C) l, (forall x, In x l -> f x = g x) -> Csum_list (map f l) = Csum_list (map g l).
Proof. intros A f g l H. rewrite (map_ext_in f g l H). reflexivity. Qed.
Lemma Csum_zero : forall {A} (l : list A), Csum_list (map (fun _ => C0) l) = C0.
Proof. induction l as [|x l IH]; [reflexivity|]. rewrite Csum_cons, IH. apply Ceq; cbn; ring. Qed.
Lemma Csum_swap : forall {A B} (f : A -> B -> C) L M,
  Csum_list (map (fun p => Csum_list (map (f p) M)) L) = Csum_list (map (fun n => Csum_list (map (fun p => f p n) L)) M).
Proof.
  intros A B f L M. induction L as [|p L IH]; [change (C0 = Csum_list (map (fun _ => C0) M)); rewrite Csum_zero; reflexivity|].
  rewrite Csum_cons, IH, <- Csum_add. apply Csum_ext. intros n _. rewrite Csum_cons. reflexivity.
Qed.
Lemma Csum_conj : forall {A} (f : A -> C) l, Cconj (Csum_list (map f l)) = Csum_list (map (fun x => Cconj (f x)) l).
Proof. intros A f l. induction l as [|x l IH]; [apply Ceq; cbn; ring|]. rewrite !Csum_cons, <- IH. apply Ceq; cbn; ring. Qed.
Lemma Csum_prod : forall {A} (u v : A -> C) L, Csum_list (map (fun p => Csum_list (map (fun q => Cmul (u p) (v q)) L)) L) = Cmul (Csum_list (map u L)) (Csum_list (map v L)).
Proof.
  intros A u v L. transitivity (Csum_list (map (fun p => Cmul (Csum_list (map v L)) (u p)) L)).
  - apply Csum_ext. intros p _. rewrite Csum_list_scal. ring.
  - rewrite Csum_list_scal. ring.
Qed.
Lemma Re_Csum : forall {A} (f : A -> C) l, Re (Csum_list (map f l)) = Rsum (map (fun x => Re (f x)) l).
Proof. induction l as [|x l IH]; [reflexivity|]. rewrite Rsum_cons, <- IH. reflexivity. Qed.

(** * Nothing leaks out of a large window *)
Section Leak.
Variable nt : nat.
Variable c : Z.
Variable hop kk : R.
Variable N rho r : Z.
Hypothesis rho_pos : 0 <= rho.
Hypothesis r_pos : 0 <= r.
Variable os os' : list move.
Hypothesis os_perm : Permutation os os'.
Hypothesis os_conj : Forall2 (conj_move c) os os'.
Hypothesis os_fit : forall o, In o os -> fits nt c rho o.
Hypothesis os_short : forall o, In o os -> Z.abs (ahead o) <= r.
Variable cand : placement -> Prop.
Hypothesis cand_range : forall n, cand n -> forall t x, 0 <= n t x <= N.
Variable K : Z.
Hypothesis K_pos : 1 <= K.
Let W1 := K + rho + r.
Let W := K + rho + r + r.
Variable M : list placement.
Hypothesis NM : NoDup M.
Hypothesis IM : forall n, In n M <-> cand n /\ inside nt W1 n.
Let q (n : placement) : R := (chi nt rho r K n * wt nt W n)%R.
Notation drift := (drift hop N os).

Lemma drift_ge0 : (0 <= drift)%R.
Proof. unfold Reach_proofs.drift. enough (0 <= Rsum (map (fun o => IZR (Z.abs (ahead o)) * strength_of hop N o) os))%R by lra. apply Rsum_nonneg. intros o _. apply Rmult_le_pos; [apply IZR_le; lia|apply strength_pos]. Qed.

Lemma leak_one : forall kq D V, (forall n, D n <> C0 -> cand n) -> norm_le nt cand D V ->
  (- (drift * V) <= Rsum (map (fun n => q n * Rsum (map (fun o => cur c hop kq D o n) os))%R M))%R.
Proof.
  intros kq D V D_cand HV.
  assert (In_W : forall n, In n M -> inside nt W n) by (intros n Hn; apply IM in Hn; apply (inside_mono nt W1); [unfold W, W1; lia|apply Hn]).
  set (src := fun n => Rsum (map (fun o => cur c hop kq D o n) os)).
  assert (B : (0 * Rsum (map (fun s => chi nt rho r K s * mass nt D W s) M) <= Rsum (map (fun s => chi nt rho r K s * (wt nt W s * src s)) M)
      + Rsum (map (fun o => IZR (Z.abs (ahead o)) * strength_of hop N o) os) / 2 * Rsum (map (mass nt D W) M))%R).
  { apply (balance_in nt c hop kq 0%R N rho os os' os_perm os_conj os_fit D src (chi nt rho r K) (fun o => IZR (Z.abs (ahead o))) W M); [unfold W; lia|exact NM|exact In_W| |intros o; apply IZR_le; lia| | |].
    - intros n Hn. apply (cand_range n). apply IM, Hn.
    - intros o s Ho Hs Ns. destruct (classic (D (step c o s) = C0)) as [Z0|NZ]; [left; exact Z0|right].
      assert (Cs : cand (step c o s)) by (apply D_cand, NZ). assert (NI : ~ inside nt W1 (step c o s)) by (intros I; apply Ns, IM; split; assumption).
      pose proof (os_short o Ho) as SH. assert (I' : inside nt W (step c o s)).
      { apply (inside_mono nt (W1 + Z.abs (ahead o))); [unfold W, W1; lia|]. apply (inside_step nt c rho); [unfold W1; lia|apply os_fit, Ho|]. apply IM, Hs. }
      split; apply (chi_out nt rho r rho_pos K K_pos); [apply In_W, Hs| |exact I'|].
      + intros I. apply NI. apply (inside_mono nt (K + rho - 1 + Z.abs (ahead o))); [unfold W1; lia|]. apply (inside_step nt c rho); [lia|apply os_fit, Ho|exact I].
      + intros I. apply NI. apply (inside_mono nt (K + rho - 1)); [unfold W1; lia|exact I].
    - intros s Hs. right. unfold src. ring.
    - intros o s Ho Hs Hs'. apply (chi_step nt c rho r rho_pos os os' os_perm os_conj os_fit os_short); [exact Ho|apply In_W, Hs|apply In_W, Hs']. }
  fold (Reach_proofs.drift hop N os) in B. rewrite Rmult_0_l in B.
  assert (B2 : (Rsum (map (mass nt D W) M) <= V)%R).
  { rewrite (mass_window nt D W1); [|intros n Hn; apply IM, Hn|unfold W, W1; lia]. apply HV; [unfold W1; lia|exact NM|]. intros n Hn. apply IM, Hn. }
  pose proof (Rmult_le_compat_l _ _ _ drift_ge0 B2).
  rewrite (Rsum_ext (fun n => q n * Rsum (map (fun o => cur c hop kq D o n) os))%R (fun s => chi nt rho r K s * (wt nt W s * src s))%R) by (intros; unfold q, src; ring). lra.
Qed.

Lemma leak : forall D V, (forall n, D n <> C0 -> cand n) -> norm_le nt cand D V ->
  (Rabs (Rsum (map (fun n => q n * Rsum (map (fun o => cur c hop kk D o n) os))%R M)) <= drift * V)%R.
Proof.
  intros D V DC HV. pose proof (leak_one kk D V DC HV) as L1.
  assert (MD : forall W n, mass nt (fun n => Cconj (D n)) W n = mass nt D W n) by (intros; unfold mass, Cnorm2, Cconj, Re, Im; cbn [fst snd]; ring).
  assert (L2 : (- (drift * V) <= Rsum (map (fun n => q n * Rsum (map (fun o => cur c hop (- kk) (fun n => Cconj (D n)) o n) os))%R M))%R).
  { apply leak_one.
    - intros n H. apply DC. intros E. apply H. rewrite E. unfold Cconj, C0, Re, Im. cbn [fst snd]. rewrite Ropp_0. reflexivity.
    - intros k L Hk NL HL. rewrite (Rsum_ext _ (mass nt D k)) by (intros; apply MD). apply HV; assumption. }
  rewrite (Rsum_ext _ (fun n => -1 * (q n * Rsum (map (fun o => cur c hop kk D o n) os)))%R), Rsum_scal in L2.
  - apply Rabs_le. split; lra.
  - intros n _. rewrite (Rsum_ext (fun o => cur c hop (- kk) (fun n => Cconj (D n)) o n) (fun o => -1 * cur c hop kk D o n)%R) by (intros o _; rewrite Band_proofs.cur_conj; ring).
    rewrite Rsum_scal. ring.
Qed.

(** The sum over the moves as a complex number. *)
Definition tot (D : placement -> C) (n : placement) : C := Csum_list (map (term_at c hop kk D n) os).
Lemma cur_tot : forall D n, Rsum (map (fun o => cur c hop kk D o n) os) = Im (Cmul (Cconj (D n)) (tot D n)).
Proof.
  intros D n. unfold tot. rewrite <- Csum_list_scal. rewrite (Im_Csum_list (fun o => Cmul (Cconj (D n)) (term_at c hop kk D n o))). reflexivity.
Qed.
Lemma tot_comb : forall D E a n, tot (fun n => Cadd (D n) (Cmul a (E n))) n = Cadd (tot D n) (Cmul a (tot E n)).
Proof.
  intros D E a n. unfold tot. rewrite <- Csum_list_scal, <- Csum_add. apply Csum_ext. intros o _. unfold term_at. ring.
Qed.

Lemma norm_comb : forall D E a V V', Cnorm2 a = 1%R -> norm_le nt cand D V -> norm_le nt cand E V' -> norm_le nt cand (fun n => Cadd (D n) (Cmul a (E n))) (2 * V + 2 * V').
Proof.
  intros D E a V V' Ha HD HE k L Hk NL HL.
  apply Rle_trans with (Rsum (map (fun n => 2 * mass nt D k n + 2 * mass nt E k n)%R L)).
  - apply Rsum_le. intros n _. unfold mass. pose proof (wt_pos nt k n) as W0.
    assert (X : (Cnorm2 (Cadd (D n) (Cmul a (E n))) <= 2 * Cnorm2 (D n) + 2 * Cnorm2 (E n))%R).
    { set (d := D n). set (e := Cmul a (E n)). assert (Ee : Cnorm2 (E n) = Cnorm2 e).
      { unfold e. assert (Y : Cnorm2 (Cmul a (E n)) = (Cnorm2 a * Cnorm2 (E n))%R) by (unfold Cnorm2, Cmul, Re, Im; cbn [fst snd]; ring). rewrite Y, Ha. ring. }
      rewrite Ee. unfold Cnorm2, Cadd, Re, Im. cbn [fst snd]. pose proof (Rle_0_sqr (fst d - fst e)). pose proof (Rle_0_sqr (snd d - snd e)). unfold Rsqr in *. lra. }
    apply (Rmult_le_compat_l (wt nt k n)) in X; lra.
  - rewrite Rsum_add, !Rsum_scal. pose proof (HD k L Hk NL HL). pose proof (HE k L Hk NL HL). lra.
Qed.

(** What two functions leave. *)
Definition gap_at (D E : placement -> C) (n : placement) : C := Csub (Cmul (Cconj (E n)) (tot D n)) (Cmul (D n) (Cconj (tot E n))).
Lemma leak_two : forall D E V V', (forall n, D n <> C0 -> cand n) -> (forall n, E n <> C0 -> cand n) -> norm_le nt cand D V -> norm_le nt cand E V' ->
  (Cabs (Csum_list (map (fun n => Cmul (RtoC (q n)) (gap_at D E n)) M)) <= 6 * drift * (V + V'))%R.
Proof.
  intros D E V V' DC EC HD HE.
  pose proof (leak D V DC HD) as L1. pose proof (leak E V' EC HE) as L2.
  assert (X : forall a, Cnorm2 a = 1%R -> (Rabs (Rsum (map (fun n => q n * Im (Cadd (Cmul a (Cmul (Cconj (D n)) (tot E n))) (Cmul (Cconj a) (Cmul (Cconj (E n)) (tot D n)))))%R M)) <= 3 * drift * (V + V'))%R).
  { intros a Ha. set (H := fun n => Cadd (D n) (Cmul a (E n))).
    assert (L3 : (Rabs (Rsum (map (fun n => q n * Rsum (map (fun o => cur c hop kk H o n) os))%R M)) <= drift * (2 * V + 2 * V'))%R).
    { apply leak; [|apply norm_comb; assumption]. intros n Hn. destruct (classic (D n = C0)) as [E1|E1]; [|apply DC, E1]. destruct (classic (E n = C0)) as [E2|E2]; [|apply EC, E2].
      exfalso. apply Hn. unfold H. rewrite E1, E2. ring. }
    set (s1 := Rsum (map (fun n => q n * Rsum (map (fun o => cur c hop kk D o n) os))%R M)) in *.
    set (s2 := Rsum (map (fun n => q n * Rsum (map (fun o => cur c hop kk E o n) os))%R M)) in *.
    set (s3 := Rsum (map (fun n => q n * Rsum (map (fun o => cur c hop kk H o n) os))%R M)) in *.
    set (s := Rsum _) in |- *.
    assert (Eq : s3 = (s1 + (s2 + s))%R).
    { unfold s1, s2, s3, s. rewrite <- !Rsum_add. apply Rsum_ext. intros n _. rewrite !cur_tot. unfold H. rewrite tot_comb.
      set (d := D n). set (e := E n). set (td := tot D n). set (te := tot E n). rewrite <- !Rmult_plus_distr_l. f_equal.
      transitivity (Im (Cmul (Cconj d) td) + (Cnorm2 a * Im (Cmul (Cconj e) te) + Im (Cadd (Cmul a (Cmul (Cconj d) te)) (Cmul (Cconj a) (Cmul (Cconj e) td)))))%R.
      - unfold Cnorm2, Cmul, Cadd, Cconj, Re, Im. cbn [fst snd]. ring.
      - rewrite Ha. ring. }
    replace s with (s3 + - s1 + - s2)%R by lra. eapply Rle_trans; [apply Rabs_triang|]. eapply Rle_trans; [apply Rplus_le_compat_r, Rabs_triang|]. rewrite !Rabs_Ropp. lra. }
  set (S := Csum_list _). assert (RE : (Rabs (Re S) <= 3 * drift * (V + V'))%R).
  { unfold S. rewrite Re_Csum. pose proof (X Ci ltac:(unfold Cnorm2, Ci, Re, Im; cbn [fst snd]; ring)) as Y. rewrite <- Rabs_Ropp.
    rewrite (Rsum_ext _ (fun n => -1 * Re (Cmul (RtoC (q n)) (gap_at D E n)))%R), Rsum_scal in Y.
    - replace (- Rsum (map (fun x => Re (Cmul (RtoC (q x)) (gap_at D E x))) M))%R with (-1 * Rsum (map (fun x => Re (Cmul (RtoC (q x)) (gap_at D E x))) M))%R by ring. exact Y.
    - intros n _. unfold gap_at. set (td := tot D n). set (te := tot E n). unfold Cmul, Cadd, Csub, Cconj, RtoC, Ci, Re, Im. cbn [fst snd]. ring. }
  assert (IM' : (Rabs (Im S) <= 3 * drift * (V + V'))%R).
  { unfold S. rewrite (Im_Csum_list (fun n => Cmul (RtoC (q n)) (gap_at D E n))). pose proof (X C1 ltac:(unfold Cnorm2, C1, Re, Im; cbn [fst snd]; ring)) as Y.
    rewrite (Rsum_ext _ (fun n => Im (Cmul (RtoC (q n)) (gap_at D E n)))%R) in Y; [exact Y|].
    intros n _. unfold gap_at. set (td := tot D n). set (te := tot E n). unfold Cmul, Cadd, Csub, Cconj, RtoC, C1, Re, Im. cbn [fst snd]. ring. }
  assert (P : (Cabs S <= Rabs (Re S) + Rabs (Im S))%R).
  { unfold Cabs. apply Rsqr_incr_0_var; [|pose proof (Rabs_pos (Re S)); pose proof (Rabs_pos (Im S)); lra]. rewrite Rsqr_sqrt by apply Band_proofs.Cnorm2_ge0.
    unfold Cnorm2, Rsqr. pose proof (Rsqr_abs (Re S)) as A1. pose proof (Rsqr_abs (Im S)) as A2. unfold Rsqr in A1, A2. rewrite A1, A2.
    pose proof (Rmult_le_pos _ _ (Rabs_pos (Re S)) (Rabs_pos (Im S))). lra. }
  lra.
Qed.
End Leak.

(** * The matrix *)
Section Pick.
Variable m : model R.
Variable ae c : Z.
Variable k : R.
Hypothesis G : good_model m ae.
Hypothesis Hlat : on_lattice m c.
Hypothesis Hherm : forall w eta, hermitian (phys_env m k w eta) m.
Variable N rho : Z.
Hypothesis N_pos : 0 <= N.
Hypothesis HN : Spec_extent.at_most m ae N.
Hypothesis rho_pos : 0 <= rho.
Hypothesis Hrho : Spec_extent.couples_within m c rho.
Let kk := (k * m_lattice m)%R.
Let hop := h_hop (m_ham m).
Let nt := m_ntypes m.
Notation cand := (cand m m ae ae).

(** A coefficient, a point, and the row there. *)
Record point := mkPoint { pt_a : C; pt_w : R; pt_eta : R; pt_row : placement -> Z -> C }.
Definition at_point (p : point) : Prop := (0 < pt_eta p)%R /\ greens_row m ae c k (pt_w p, pt_eta p) (pt_row p).
Definition pz (p : point) : C := (pt_w p, pt_eta p).
Definition F (p : point) (n : placement) : C := pt_row p n 0.
Definition to_sample (p : point) : sample := mkSample (pt_a p) (pz p) (F p vacuum).

Lemma F_cand : forall p, at_point p -> forall n, F p n <> C0 -> cand n.
Proof.
  intros p [_ Ro] n H. destruct (F_support m ae c k _ _ (pt_row p) Ro n H) as [-> | [a [s [Sa ->]]]]; [left; reflexivity|right]. exists a, s. split; [left; exact Sa|reflexivity].
Qed.
Lemma F_norm : forall p, at_point p -> norm_le nt cand (F p) (1 / (pt_eta p * pt_eta p)).
Proof.
  intros p [He Ro]. exact (norm_F m m ae ae c k (pt_w p) (pt_eta p) He G G Hlat eq_refl (Hherm _ _) N rho N_pos HN HN rho_pos Hrho m ae (pt_row p) G eq_refl eq_refl (fun a H => or_introl H) Ro).
Qed.

Lemma den_pos : forall p q, at_point p -> at_point q -> (0 < Cabs (Csub (pz p) (Cconj (pz q))))%R.
Proof.
  intros p q [Hp _] [Hq _]. apply Cabs_pos. intros E. apply (f_equal snd) in E. unfold Csub, Cconj, pz, C0, Re, Im in E. cbn [fst snd] in E. lra.
Qed.

(** The rows at a candidate. *)
Lemma gap_row : forall w eta w' eta' D E n e s, row_at c hop kk w eta (moves m) D n e s -> row_at c hop kk w' eta' (moves m) E n e s ->
  gap_at c hop kk (moves m) D E n =
  Csub (Csub (Cmul s (Cconj (E n))) (Cmul (D n) (Cconj s))) (Cmul (Csub (w, eta) (Cconj (w', eta'))) (Cmul (D n) (Cconj (E n)))).
Proof.
  intros w eta w' eta' D E n e s HD HE. unfold row_at in HD, HE. unfold gap_at, tot.
  set (td := Csum_list (map (term_at c hop kk D n) (moves m))) in *. set (te := Csum_list (map (term_at c hop kk E n) (moves m))) in *.
  assert (Et : td = Csub s (Csub (Cmul (w, eta) (D n)) (Cmul (RtoC e) (D n)))).
  { rewrite <- HD. apply Ceq; unfold Cadd, Csub, Re, Im; cbn [fst snd]; ring. }
  assert (Et' : te = Csub s (Csub (Cmul (w', eta') (E n)) (Cmul (RtoC e) (E n)))).
  { rewrite <- HE. apply Ceq; unfold Cadd, Csub, Re, Im; cbn [fst snd]; ring. }
  rewrite Et, Et'. set (d := D n). set (f := E n). apply Ceq; unfold Cmul, Csub, Cconj, RtoC, Re, Im; cbn [fst snd]; ring.
Qed.
Lemma gap_vac : forall p q, at_point p -> at_point q ->
  gap_at c hop kk (moves m) (F p) (F q) vacuum = Csub (Csub (Cconj (F q vacuum)) (F p vacuum)) (Cmul (Csub (pz p) (Cconj (pz q))) (Cmul (F p vacuum) (Cconj (F q vacuum)))).
Proof.
  intros p q [_ Rp] [_ Rq]. rewrite (gap_row _ _ _ _ (F p) (F q) vacuum 0%R C1 (row_vac m ae c k _ _ _ Rp) (row_vac m ae c k _ _ _ Rq)).
  fold (pz p). fold (pz q). set (x := F p vacuum). set (y := F q vacuum). f_equal. apply Ceq; unfold Cmul, Csub, Cconj, C1, Re, Im; cbn [fst snd]; ring.
Qed.
Lemma gap_other : forall p q n, at_point p -> at_point q -> cand n -> n <> vacuum ->
  gap_at c hop kk (moves m) (F p) (F q) n = Copp (Cmul (Csub (pz p) (Cconj (pz q))) (Cmul (F p n) (Cconj (F q n)))).
Proof.
  intros p q n [_ Rp] [_ Rq] [-> | [a [s [Sa ->]]]] Nv; [contradiction|]. assert (Sm : space m ae a) by (destruct Sa; assumption).
  destruct (energy_list m ae G a Sm) as [l El].
  rewrite (gap_row _ _ _ _ (F p) (F q) _ _ C0 (row_cloud m ae c k _ _ _ Rp a l s Sm El) (row_cloud m ae c k _ _ _ Rq a l s Sm El)).
  fold (pz p). fold (pz q). set (x := F p _). set (y := F q _). set (z := Cmul _ (Cmul _ _)). apply Ceq; unfold Cmul, Csub, Copp, Cconj, C0, Re, Im; cbn [fst snd]; ring.
Qed.

Section Window.
Variable r : Z.
Hypothesis r_pos : 0 <= r.
Hypothesis short : forall o, In o (moves m) -> Z.abs (ahead o) <= r.
Variable K : Z.
Hypothesis K_pos : 1 <= K.
Variable M : list placement.
Hypothesis NM : NoDup M.
Hypothesis IM : forall n, In n M <-> cand n /\ inside nt (K + rho + r) n.
Let q (n : placement) : R := (chi nt rho r K n * wt nt (K + rho + r + r) n)%R.
Notation drift := (drift hop N (moves m)).

Definition gram (p p' : point) : C := Csum_list (map (fun n => Cmul (RtoC (q n)) (Cmul (F p n) (Cconj (F p' n)))) M).

Lemma q_vac : q vacuum = IZR K.
Proof. unfold q. rewrite (chi_vacuum nt rho r rho_pos K K_pos), wt_vacuum. ring. Qed.

Lemma q_pos : forall n, (0 <= q n)%R.
Proof. intros n. unfold q. apply Rmult_le_pos; [apply chi_pos|left; apply wt_pos]. Qed.

Lemma vac_once : forall (f : placement -> C) x, (forall n, In n M -> n <> vacuum -> f n = C0) -> f vacuum = x -> Csum_list (map f M) = x.
Proof.
  intros f x Hn Hv. assert (Iv : In vacuum M) by (apply IM; split; [left; reflexivity|apply inside_vacuum]). clear IM.
  induction M as [|n l IH]; [contradiction|]. rewrite Csum_cons. inversion NM as [|? ? Nn Nl]; subst. destruct Iv as [-> | Iv].
  - rewrite (Csum_ext f (fun _ => C0)), Csum_zero; [ring|]. intros n' H'. apply Hn; [right; exact H'|]. intros ->. contradiction.
  - rewrite IH; [|exact Nl|intros n' H'; apply Hn; right; exact H'|exact Iv]. rewrite (Hn n (or_introl eq_refl)) by (intros ->; contradiction). ring.
Qed.

Lemma pair_bound : forall p p', at_point p -> at_point p' ->
  (Cabs (Csub (Cmul (RtoC (IZR K)) (Csub (Cconj (F p' vacuum)) (F p vacuum))) (Cmul (Csub (pz p) (Cconj (pz p'))) (gram p p')))
    <= 6 * drift * (1 / (pt_eta p * pt_eta p) + 1 / (pt_eta p' * pt_eta p')))%R.
Proof.
  intros p p' Hp Hp'. destruct (moves_conj m m c k 0 1 Hlat eq_refl (Hherm _ _)) as [l [Pl Fl]].
  pose proof (leak_two nt c hop kk N rho r rho_pos r_pos (moves m) l Pl Fl (moves_fit m ae c G rho Hrho) short cand (cand_range m m ae ae eq_refl N N_pos HN HN) K K_pos M NM IM
    (F p) (F p') _ _ (F_cand p Hp) (F_cand p' Hp') (F_norm p Hp) (F_norm p' Hp')) as B.
  fold q in B. set (S := Csum_list _) in B.
  assert (E : S = Csub (Cmul (RtoC (IZR K)) (Csub (Cconj (F p' vacuum)) (F p vacuum))) (Cmul (Csub (pz p) (Cconj (pz p'))) (gram p p'))).
  { unfold gram. rewrite <- Csum_list_scal. set (dz := Csub (pz p) (Cconj (pz p'))).
    transitivity (Csub (Cadd S (Csum_list (map (fun n => Cmul dz (Cmul (RtoC (q n)) (Cmul (F p n) (Cconj (F p' n))))) M))) (Csum_list (map (fun n => Cmul dz (Cmul (RtoC (q n)) (Cmul (F p n) (Cconj (F p' n))))) M))); [ring|].
    f_equal. unfold S. rewrite <- Csum_add. apply vac_once.
    - intros n Hn Nv. rewrite (gap_other p p' n Hp Hp') by (try assumption; apply IM, Hn). fold dz. ring.
    - rewrite (gap_vac p p' Hp Hp'), <- q_vac. fold dz. ring. }
  rewrite <- E. exact B.
Qed.

(** The Gram matrix is positive. *)
Lemma gram_form : forall L, exists x, (IZR K * Cnorm2 (Csum_list (map (fun p => Cmul (pt_a p) (F p vacuum)) L)) <= x)%R /\
  Csum_list (map (fun p => Csum_list (map (fun p' => Cmul (Cmul (pt_a p) (Cconj (pt_a p'))) (gram p p')) L)) L) = RtoC x.
Proof.
  intros L. set (D := fun n => Csum_list (map (fun p => Cmul (pt_a p) (F p n)) L)).
  exists (Rsum (map (fun n => q n * Cnorm2 (D n))%R M)). split.
  { fold (D vacuum). rewrite <- q_vac. apply Rle_trans with (Rsum (map (fun n => q n * Cnorm2 (D n))%R [vacuum])); [rewrite Rsum_cons; unfold Rsum; cbn [map fold_right]; lra|].
    apply Rsum_incl; [repeat constructor; intros []| |intros n _; apply Rmult_le_pos; [apply q_pos|apply Band_proofs.Cnorm2_ge0]].
    intros n [<- | []]. apply IM. split; [left; reflexivity|apply inside_vacuum]. }
  transitivity (Csum_list (map (fun n => Cmul (RtoC (q n)) (Cmul (D n) (Cconj (D n)))) M)).
  - transitivity (Csum_list (map (fun p => Csum_list (map (fun n => Csum_list (map (fun p' => Cmul (RtoC (q n)) (Cmul (Cmul (pt_a p) (F p n)) (Cconj (Cmul (pt_a p') (F p' n))))) L)) M)) L)).
    + apply Csum_ext. intros p _. rewrite <- Csum_swap. apply Csum_ext. intros p' _. unfold gram. rewrite <- Csum_list_scal. apply Csum_ext. intros n _.
      set (x := F p n). set (y := F p' n). set (a := pt_a p). set (b := pt_a p'). apply Ceq; unfold Cmul, Cconj, RtoC, Re, Im; cbn [fst snd]; ring.
    + rewrite Csum_swap. apply Csum_ext. intros n _.
      transitivity (Csum_list (map (fun p => Csum_list (map (fun p' => Cmul (Cmul (RtoC (q n)) (Cmul (pt_a p) (F p n))) (Cconj (Cmul (pt_a p') (F p' n)))) L)) L)).
      * apply Csum_ext. intros p _. apply Csum_ext. intros p' _. ring.
      * rewrite (Csum_prod (fun p => Cmul (RtoC (q n)) (Cmul (pt_a p) (F p n))) (fun p' => Cconj (Cmul (pt_a p') (F p' n)))), Csum_list_scal, <- Csum_conj. fold (D n). ring.
  - apply Ceq.
    + rewrite Re_Csum. cbn [Re RtoC fst]. apply Rsum_ext. intros n _. set (d := D n). unfold Cmul, Cconj, RtoC, Cnorm2, Re, Im. cbn [fst snd]. ring.
    + rewrite (Im_Csum_list (fun n => Cmul (RtoC (q n)) (Cmul (D n) (Cconj (D n))))). cbn [Im RtoC snd]. rewrite (Rsum_ext _ (fun _ => 0%R)), Rsum_0; [reflexivity|]. intros n _. set (d := D n). unfold Cmul, Cconj, RtoC, Re, Im. cbn [fst snd]. ring.
Qed.
End Window.

Definition slack (p p' : point) : R :=
  (Cabs (Cmul (pt_a p) (Cconj (pt_a p'))) * (6 * drift hop N (moves m) * (1 / (pt_eta p * pt_eta p) + 1 / (pt_eta p' * pt_eta p')) / Cabs (Csub (pz p) (Cconj (pz p')))))%R.

Lemma Csum_abs : forall {A} (f : A -> C) l, (Cabs (Csum_list (map f l)) <= Rsum (map (fun x => Cabs (f x)) l))%R.
Proof. intros A f l. apply Perturb_proofs.Cabs_list. Qed.

Theorem pick_positive : forall L, (forall p, In p L -> at_point p) -> Im (pick_form (map to_sample L)) = 0%R /\ (Cnorm2 (value_form (map to_sample L)) <= Re (pick_form (map to_sample L)))%R.
Proof.
  intros L HL. set (X := pick_form (map to_sample L)). set (Y := value_form (map to_sample L)). set (B := Rsum (map (fun p => Rsum (map (slack p) L)) L)).
  assert (T : forall K, 1 <= K -> exists x, (IZR K * Cnorm2 Y <= x)%R /\ (Cabs (Csub (Cmul (RtoC (IZR K)) X) (RtoC x)) <= B)%R).
  { intros K HK. destruct (moves_short m m eq_refl) as [r [R0 Hr]]. destruct (cand_windows m m ae ae G G eq_refl) as [A1 [A2 [P1 [P2 HW]]]].
    destruct (HW (K + rho + r) ltac:(lia)) as [M [NM [IM _]]]. destruct (gram_form r K HK M IM L) as [x [X0 Ex]]. exists x.
    split; [eapply Rle_trans; [|exact X0]; right; unfold Y, value_form; rewrite map_map; reflexivity|]. rewrite <- Ex.
    assert (EX : X = Csum_list (map (fun p => Csum_list (map (fun p' => Cmul (Cmul (pt_a p) (Cconj (pt_a p'))) (pick (to_sample p) (to_sample p'))) L)) L)).
    { unfold X, pick_form. rewrite map_map. apply Csum_ext. intros p _. rewrite map_map. reflexivity. }
    rewrite EX, <- Csum_list_scal, <- Csum_list_sub. eapply Rle_trans; [apply Csum_abs|]. apply Rsum_le. intros p Hp.
    rewrite <- Csum_list_scal, <- Csum_list_sub. eapply Rle_trans; [apply Csum_abs|]. apply Rsum_le. intros p' Hp'.
    pose proof (HL p Hp) as Ap. pose proof (HL p' Hp') as Ap'. pose proof (den_pos p p' Ap Ap') as DP.
    pose proof (pair_bound r R0 Hr K HK M NM IM p p' Ap Ap') as PB. unfold slack.
    set (ab := Cmul (pt_a p) (Cconj (pt_a p'))). set (dz := Csub (pz p) (Cconj (pz p'))) in *. set (g := gram r K M p p') in *.
    assert (Dz : dz <> C0) by (intros E; rewrite E, Cabs_0 in DP; lra).
    replace (Csub (Cmul (RtoC (IZR K)) (Cmul ab (pick (to_sample p) (to_sample p')))) (Cmul ab g)) with (Cmul ab (Csub (Cmul (RtoC (IZR K)) (pick (to_sample p) (to_sample p'))) g)) by ring.
    rewrite Cabs_mul. apply Rmult_le_compat_l; [apply Cabs_ge0|]. apply (Rmult_le_reg_l (Cabs dz)); [exact DP|]. rewrite <- Cabs_mul.
    replace (Cabs dz * (6 * drift hop N (moves m) * (1 / (pt_eta p * pt_eta p) + 1 / (pt_eta p' * pt_eta p')) / Cabs dz))%R with (6 * drift hop N (moves m) * (1 / (pt_eta p * pt_eta p) + 1 / (pt_eta p' * pt_eta p')))%R.
    2:{ destruct Ap as [e1 _]. destruct Ap' as [e2 _]. field. repeat split; lra. }
    eapply Rle_trans; [|exact PB]. right. f_equal.
    assert (EP : Cmul dz (pick (to_sample p) (to_sample p')) = Csub (Cconj (F p' vacuum)) (F p vacuum)).
    { change (pick (to_sample p) (to_sample p')) with (Cmul (Csub (Cconj (F p' vacuum)) (F p vacuum)) (Cinv dz)).
      set (u := Csub _ (F p vacuum)). pose proof (Cinv_l dz Dz) as I. replace (Cmul dz (Cmul u (Cinv dz))) with (Cmul u (Cmul (Cinv dz) dz)) by ring. rewrite I. ring. }
    rewrite <- EP. ring. }
  assert (ARCH : forall y, (forall K, 1 <= K -> (IZR K * y <= B)%R) -> (y <= 0)%R).
  { intros y H. destruct (Rle_lt_dec y 0) as [L0|L0]; [exact L0|exfalso]. destruct (archimed (B / y)) as [U _]. specialize (H (Z.max 1 (up (B / y))) ltac:(lia)).
    assert (UK : (IZR (up (B / y)) <= IZR (Z.max 1 (up (B / y))))%R) by (apply IZR_le; lia).
    assert (E : (B / y * y = B)%R) by (field; lra). assert (IZR (Z.max 1 (up (B / y))) * y > B / y * y)%R by (apply Rmult_gt_compat_r; lra). lra. }
  assert (IA : forall K, 1 <= K -> (Rabs (IZR K * Im X) <= B)%R).
  { intros K HK. destruct (T K HK) as [x [_ H]]. eapply Rle_trans; [|exact H]. eapply Rle_trans; [|apply Im_abs_le]. right. f_equal. unfold Csub, Cmul, RtoC, Re, Im. cbn [fst snd]. ring. }
  split.
  - apply Rle_antisym; [|apply Ropp_le_cancel; rewrite Ropp_0]; apply ARCH; intros K HK; pose proof (IA K HK) as H.
    + eapply Rle_trans; [apply Rle_abs|exact H].
    + eapply Rle_trans; [|exact H]. rewrite <- Rabs_Ropp. eapply Rle_trans; [|apply Rle_abs]. right. ring.
  - apply Rminus_le. apply ARCH. intros K HK. destruct (T K HK) as [x [x0 H]].
    pose proof (Band_proofs.Re_abs_le (Csub (Cmul (RtoC (IZR K)) X) (RtoC x))) as H2. set (y := Re (Csub (Cmul (RtoC (IZR K)) X) (RtoC x))) in *.
    assert (Ey : y = (IZR K * Re X - x)%R) by (unfold y, Csub, Cmul, RtoC, Re, Im; cbn [fst snd]; ring).
    pose proof (Rle_abs (- y)). rewrite Rabs_Ropp in *. lra.
Qed.
End Pick.
