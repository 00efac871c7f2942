(** Proofs for C69: moments of the computed Green's function. *)
From Coq Require Import String ZArith Reals List Bool Lia Lra Permutation Classical FunctionalExtensionality.
From Verif Require Import Base NdArray NdArray_proofs Spec Config_proofs Model HModel Ring Coef Cplx Physics Physics_proofs Toeplitz_proofs Weight_proofs Spec_eom
  Spec_space Spec_engine Modify_proofs Equation_proofs Spec_model Spec_spectral Energy_proofs Spec_green Cutoff_proofs Tent_proofs Walk_proofs Reach_proofs Full_proofs Spec_exact Extent_proofs
  Exact_proofs Spec_moments.
From Verif Require Spec_extent Firsov_proofs.
Import ListNotations.
Open Scope list_scope.
Open Scope Z_scope.

(** * Sums *)
Lemma Cabs_list : forall {A} (f : A -> C) l, (Cabs (Csum_list (map f l)) <= Rsum (map (fun x => Cabs (f x)) l))%R.
Proof.
  induction l as [|x l IH].
  - cbn [map Csum_list fold_right]. unfold Cabs, Cnorm2, C0, Re, Im. cbn [fst snd]. rewrite Rmult_0_l, Rplus_0_r, sqrt_0. unfold Rsum. cbn. lra.
  - rewrite Rsum_cons. cbn [map Csum_list fold_right]. eapply Rle_trans; [apply Cabs_triangle|]. unfold Csum_list in IH. lra.
Qed.
Lemma Cabs_RtoC : forall x, Cabs (RtoC x) = Rabs x.
Proof. intros x. unfold Cabs, Cnorm2, RtoC, Re, Im. cbn [fst snd]. rewrite Rmult_0_l, Rplus_0_r. apply sqrt_Rsqr_abs. Qed.
Lemma Cabs_sub : forall u v, (Cabs (Csub u v) <= Cabs u + Cabs v)%R.
Proof. intros u v. replace (Csub u v) with (Cadd u (Copp v)) by ring. eapply Rle_trans; [apply Cabs_triangle|]. rewrite Cabs_opp. lra. Qed.
Lemma Cabs_C0 : Cabs C0 = 0%R.
Proof. unfold Cabs, Cnorm2, C0, Re, Im. cbn [fst snd]. rewrite Rmult_0_l, Rplus_0_r. apply sqrt_0. Qed.

Lemma power_nz : forall z q, z <> C0 -> power z q <> C0.
Proof.
  intros z q H. induction q as [|q IH]; cbn [power]; [exact C1_neq_C0|]. intros E. apply IH. apply (C_integral z); [exact H|exact E].
Qed.
Lemma series_next : forall z mu Q, z <> C0 -> Cmul z (series z mu (S Q)) = Cadd (mu 0%nat) (series z (fun q => mu (S q)) Q).
Proof.
  intros z mu Q H. unfold series. cbn [seq map]. cbn [Csum_list fold_right]. fold (Csum_list (map (fun q => Cdiv (mu q) (power z (S q))) (seq 1 Q))).
  rewrite <- seq_shift, map_map.
  transitivity (Cadd (mu 0%nat) (Cmul z (Csum_list (map (fun q => Cdiv (mu (S q)) (power z (S (S q)))) (seq 0 Q))))).
  - cbn [power]. field. exact H.
  - f_equal. rewrite <- Csum_list_scal. f_equal. apply map_ext. intros q. pose proof (power_nz z q H). cbn [power]. field. split; assumption.
Qed.

(** * Powers of 1/z *)
Section Orders.
Variable m : model R.
Variable ae c : Z.
Variable k : R.
Hypothesis G : good_model m ae.
Hypothesis Hlat : on_lattice m c.
Variable rho r : Z.
Hypothesis rho_pos : 0 <= rho.
Hypothesis Hrho : Spec_extent.couples_within m c rho.
Hypothesis r_pos : 0 <= r.
Hypothesis Hr : forall o, In o (moves m) -> Z.abs (ahead o) <= r.
Let nt := m_ntypes m.
Let hop := h_hop (m_ham m).
Let kk := (k * m_lattice m)%R.
Notation dom := (full m).

(** What [q] moves reach, in the frame of the particle. *)
Inductive lv : nat -> placement -> Prop :=
| lv_0 : lv 0 vacuum
| lv_S : forall q n, lv q n -> lv (S q) n
| lv_M : forall q n o, lv q n -> In o (moves m) -> dom (step c o n) -> lv (S q) (step c o n).

Lemma lv_full : forall q n, lv q n -> dom n.
Proof. intros q n H. induction H; [exact (full_vacuum m ae G)|assumption|assumption]. Qed.
Lemma lv_le : forall q q' n, (q <= q')%nat -> lv q n -> lv q' n.
Proof. intros q q' n H. induction H; [auto|]. intros L. apply lv_S. auto. Qed.

Lemma step_in : forall K o n, rho <= K -> In o (moves m) -> inside nt K n -> inside nt (K + r) (step c o n).
Proof.
  intros K o n HK Ho I. apply (inside_mono nt (K + Z.abs (ahead o))); [specialize (Hr o Ho); lia|].
  apply (inside_step nt c rho); [exact HK|apply (moves_fit m ae c G rho Hrho o Ho)|exact I].
Qed.

(** The Hamiltonian on functionals. *)
Definition Hof (F : placement -> C) (K : Z) (n : placement) : C :=
  Csub (Cmul (RtoC (energy m K n)) (F n)) (Csum_list (map (term_at c hop kk F n) (moves m))).
Lemma Hof_sub : forall F F' K n, Hof (fun n => Csub (F n) (F' n)) K n = Csub (Hof F K n) (Hof F' K n).
Proof.
  intros F F' K n. unfold Hof.
  rewrite (map_ext (term_at c hop kk (fun n => Csub (F n) (F' n)) n) (fun o => Csub (term_at c hop kk F n o) (term_at c hop kk F' n o))); [rewrite Csum_list_sub; ring|].
  intros o. unfold term_at. ring.
Qed.
Lemma row_Hof : forall w eta F K n s, row_at c hop kk w eta (moves m) F n (energy m K n) s <-> Cmul (w, eta) (F n) = Cadd s (Hof F K n).
Proof.
  intros w eta F K n s. unfold row_at, Hof. split; intros H; [rewrite <- H; ring|]. rewrite H. ring.
Qed.

(** Sums of products of matrix elements of H along its moves. *)
Fixpoint cst (i : nat) (K : Z) (n : placement) : R :=
  match i with
  | O => sqrt (/ wt nt K n)
  | S i => (Rabs (energy m K n) * cst i (K + r) n + Rsum (map (fun o => Rabs (weight c hop o n) * cst i (K + r) (step c o n)) (moves m)))%R
  end.
Lemma cst_pos : forall i K n, (0 <= cst i K n)%R.
Proof.
  induction i as [|i IH]; intros K n; cbn [cst]; [apply sqrt_pos|]. apply Rplus_le_le_0_compat; [apply Rmult_le_pos; [apply Rabs_pos|apply IH]|].
  apply Rsum_nonneg. intros o _. apply Rmult_le_pos; [apply Rabs_pos|apply IH].
Qed.

Lemma Hof_abs : forall F i K n x e, (0 <= x)%R -> (x * Cabs (F n) <= e * cst i (K + r) n)%R ->
  (forall o, In o (moves m) -> x * Cabs (F (step c o n)) <= e * cst i (K + r) (step c o n))%R -> (x * Cabs (Hof F K n) <= e * cst (S i) K n)%R.
Proof.
  intros F i K n x e Hx H0 HS. unfold Hof. eapply Rle_trans; [apply Rmult_le_compat_l; [exact Hx|apply Cabs_sub]|]. cbn [cst]. rewrite Cabs_mul, Cabs_RtoC.
  assert (A : (x * (Rabs (energy m K n) * Cabs (F n)) <= Rabs (energy m K n) * (e * cst i (K + r) n))%R).
  { replace (x * (Rabs (energy m K n) * Cabs (F n)))%R with (Rabs (energy m K n) * (x * Cabs (F n)))%R by ring. apply Rmult_le_compat_l; [apply Rabs_pos|exact H0]. }
  assert (B : (x * Cabs (Csum_list (map (term_at c hop kk F n) (moves m))) <= e * Rsum (map (fun o => Rabs (weight c hop o n) * cst i (K + r) (step c o n)) (moves m)))%R).
  { eapply Rle_trans; [apply Rmult_le_compat_l; [exact Hx|apply Cabs_list]|]. revert HS. generalize (moves m) as l. induction l as [|o l IH]; intros HS; [unfold Rsum; cbn; lra|].
    rewrite !Rsum_cons, !Rmult_plus_distr_l. apply Rplus_le_compat; [|apply IH; intros q Hq; apply HS; right; exact Hq].
    unfold term_at. rewrite !Cabs_mul, Cabs_RtoC, phase_abs, Rmult_1_l.
    replace (x * (Rabs (weight c hop o n) * Cabs (F (step c o n))))%R with (Rabs (weight c hop o n) * (x * Cabs (F (step c o n))))%R by ring.
    replace (e * (Rabs (weight c hop o n) * cst i (K + r) (step c o n)))%R with (Rabs (weight c hop o n) * (e * cst i (K + r) (step c o n)))%R by ring.
    apply Rmult_le_compat_l; [apply Rabs_pos|]. apply HS. left. reflexivity. }
  lra.
Qed.

Section AtZ.
Variable w eta : R.
Hypothesis eta_pos : (0 < eta)%R.
Notation z := ((w, eta) : C).
Let az := Cabs z.
Lemma az_pos : (0 <= az)%R.
Proof. apply sqrt_pos. Qed.
Lemma z_nz : z <> C0.
Proof. intros E. apply (f_equal Im) in E. unfold Im, C0 in E. cbn [snd] in E. lra. Qed.

(** A bounded functional. *)
Definition small (e : R) (F : placement -> C) : Prop := forall n K, dom n -> inside nt K n -> 0 <= K -> (Cabs (F n) <= e * cst 0 K n)%R.
Lemma norm_small : forall F, norm_le nt dom F (1 / (eta * eta)) -> small (1 / eta) F.
Proof.
  intros F H n K Dn In_n HK. pose proof (H K [n] HK ltac:(repeat constructor; intros []) ltac:(intros q [<- | []]; split; assumption)) as B.
  cbn [map] in B. unfold Rsum in B. cbn [fold_right] in B. unfold mass in B. rewrite Rplus_0_r in B. cbn [cst]. pose proof (wt_pos nt K n) as W.
  unfold Cabs. assert (P : (0 <= 1 / eta)%R) by (left; apply Rdiv_lt_0_compat; lra). rewrite <- (sqrt_square (1 / eta)%R P) at 1. rewrite <- sqrt_mult; [|nra|left; apply Rinv_0_lt_compat; exact W].
  apply sqrt_le_1_alt. apply (Rmult_le_reg_l (wt nt K n)); [exact W|]. replace (wt nt K n * (1 / eta * (1 / eta) * / wt nt K n))%R with (1 / (eta * eta))%R by (field; lra). exact B.
Qed.

(** One row: if z D = H D' at [n], the order of D there is one more than that of D'. *)
Lemma gain : forall (D D' : placement -> C) e i K n, rho <= K -> inside nt K n -> (0 <= e)%R -> Cmul z (D n) = Hof D' K n ->
  (forall q, q = n \/ (exists o, In o (moves m) /\ q = step c o n) -> (az ^ i * Cabs (D' q) <= e * cst i (K + r) q)%R) ->
  (az ^ S i * Cabs (D n) <= e * cst (S i) K n)%R.
Proof.
  intros D D' e i K n HK In_n He Row HD.
  replace (az ^ S i * Cabs (D n))%R with (az ^ i * Cabs (Cmul z (D n)))%R by (rewrite Cabs_mul; fold az; cbn [pow]; ring). rewrite Row.
  apply Hof_abs; [apply pow_le, az_pos|apply HD; left; reflexivity|]. intros o Ho. apply HD. right. exists o. split; [exact Ho|reflexivity].
Qed.

(** * Far from the phonon-free state *)
Variable os' : list move.
Hypothesis Pl : Permutation (moves m) os'.
Hypothesis Fl : Forall2 (conj_move c) (moves m) os'.
Lemma back : forall o, In o (moves m) -> exists o', In o' (moves m) /\ conj_move c o o'.
Proof.
  intros o Ho. assert (H : forall l l', Forall2 (conj_move c) l l' -> In o l -> exists o', In o' l' /\ conj_move c o o').
  { intros l l' F. induction F as [|x y l l' X F IH]; [intros []|]. intros [<- | H]; [exists y; split; [left; reflexivity|exact X]|]. destruct (IH H) as [o' [A B]]. exists o'. split; [right; exact A|exact B]. }
  destruct (H _ _ Fl Ho) as [o' [A B]]. exists o'. split; [|exact B]. apply (Permutation_in o' (Permutation_sym Pl)). exact A.
Qed.

Lemma far : forall F e, (0 <= e)%R -> small e F -> (forall n, F n <> C0 -> dom n) ->
  (forall n K, F n <> C0 -> n <> vacuum -> inside nt K n -> Cmul z (F n) = Hof F K n) ->
  forall i K n, rho <= K -> inside nt K n -> dom n -> ~ lv i n -> (az ^ S i * Cabs (F n) <= e * cst (S i) K n)%R.
Proof.
  intros F e He SF HF HR. induction i as [|i IH]; intros K n HK In_n Dn NL.
  - destruct (classic (F n = C0)) as [E|E]; [rewrite E, Cabs_C0, Rmult_0_r; apply Rmult_le_pos; [exact He|apply cst_pos]|].
    apply (gain F F e 0 K n HK In_n He); [apply HR; [exact E|intros X; apply NL; rewrite X; constructor|exact In_n]|].
    intros q Hq. rewrite pow_O, Rmult_1_l. destruct (classic (F q = C0)) as [Eq|Eq]; [rewrite Eq, Cabs_C0; apply Rmult_le_pos; [exact He|apply cst_pos]|].
    apply SF; [apply HF, Eq| |lia]. destruct Hq as [-> | [o [Ho ->]]]; [apply (inside_mono nt K); [lia|exact In_n]|apply step_in; assumption].
  - destruct (classic (F n = C0)) as [E|E]; [rewrite E, Cabs_C0, Rmult_0_r; apply Rmult_le_pos; [exact He|apply cst_pos]|].
    apply (gain F F e (S i) K n HK In_n He); [apply HR; [exact E|intros X; apply NL; rewrite X; apply (lv_le 0); [lia|constructor]|exact In_n]|].
    intros q Hq. destruct (classic (F q = C0)) as [Eq|Eq]; [rewrite Eq, Cabs_C0, Rmult_0_r; apply Rmult_le_pos; [exact He|apply cst_pos]|].
    apply IH; [lia| |apply HF, Eq|].
    + destruct Hq as [-> | [o [Ho ->]]]; [apply (inside_mono nt K); [lia|exact In_n]|apply step_in; assumption].
    + intros L. apply NL. destruct Hq as [-> | [o [Ho ->]]]; [apply lv_S, L|]. destruct (back o Ho) as [o' [Ho' Cj]].
      rewrite <- (step_conj c o o' n Cj). apply lv_M; [exact L|exact Ho'|]. rewrite (step_conj c o o' n Cj). exact Dn.
Qed.

(** * Two functionals with the same rows near the phonon-free state *)
Lemma close : forall F F' e d, (0 <= e)%R -> small e F -> small e F' -> (forall n, F n <> C0 -> dom n) -> (forall n, F' n <> C0 -> dom n) ->
  (forall n K, F n <> C0 -> n <> vacuum -> inside nt K n -> Cmul z (F n) = Hof F K n) ->
  (forall n K, F' n <> C0 -> n <> vacuum -> inside nt K n -> Cmul z (F' n) = Hof F' K n) ->
  (forall n K, lv d n -> inside nt K n -> Cmul z (Csub (F n) (F' n)) = Csub (Hof F K n) (Hof F' K n)) ->
  forall i l K n, (l <= S d)%nat -> (i + l <= 2 * d + 2)%nat -> rho <= K -> inside nt K n -> lv l n ->
    (az ^ i * Cabs (Csub (F n) (F' n)) <= 2 * e * cst i K n)%R.
Proof.
  intros F F' e d He SF SF' HF HF' HR HR' HD. induction i as [|i IH]; intros l K n Hl Hi HK In_n Ln; pose proof (lv_full l n Ln) as Dn.
  - rewrite pow_O, Rmult_1_l. eapply Rle_trans; [apply Cabs_sub|]. pose proof (SF n K Dn In_n ltac:(lia)). pose proof (SF' n K Dn In_n ltac:(lia)). lra.
  - assert (Z0 : forall q, ~ dom q -> Csub (F q) (F' q) = C0).
    { intros q Nq. assert (F q = C0) as -> by (destruct (classic (F q = C0)) as [E|E]; [exact E|exfalso; apply Nq, HF, E]).
      assert (F' q = C0) as -> by (destruct (classic (F' q = C0)) as [E|E]; [exact E|exfalso; apply Nq, HF', E]). ring. }
    destruct (classic (lv (Nat.min l d) n)) as [L|L].
    + apply (gain (fun n => Csub (F n) (F' n)) (fun n => Csub (F n) (F' n)) (2 * e) i K n HK In_n ltac:(lra)).
      * rewrite Hof_sub. apply HD; [apply (lv_le (Nat.min l d)); [lia|exact L]|exact In_n].
      * intros q Hq. destruct (classic (dom q)) as [Dq|Dq]; [|rewrite (Z0 q Dq), Cabs_C0, Rmult_0_r; apply Rmult_le_pos; [lra|apply cst_pos]].
        apply (IH (S (Nat.min l d))); [lia|lia|lia| |].
        -- destruct Hq as [-> | [o [Ho ->]]]; [apply (inside_mono nt K); [lia|exact In_n]|apply step_in; assumption].
        -- destruct Hq as [-> | [o [Ho ->]]]; [apply lv_S, L|apply lv_M; assumption].
    + assert (E : l = S d). { destruct (Nat.eq_dec l (S d)) as [E|E]; [exact E|]. exfalso. apply L. rewrite Nat.min_l by lia. exact Ln. }
      assert (Ni : ~ lv i n) by (intros X; apply L; apply (lv_le i); [lia|exact X]).
      pose proof (far F e He SF HF HR i K n HK In_n Dn Ni). pose proof (far F' e He SF' HF' HR' i K n HK In_n Dn Ni).
      eapply Rle_trans; [apply Rmult_le_compat_l; [apply pow_le, az_pos|apply Cabs_sub]|]. lra.
Qed.

(** * The expansion of a functional with all rows *)
Lemma expand : forall F nu e, (0 <= e)%R -> small e F -> (forall n, F n <> C0 -> dom n) ->
  (forall n K, dom n -> inside nt K n -> Cmul z (F n) = Cadd (nu 0%nat n) (Hof F K n)) ->
  (forall q n, ~ dom n -> nu q n = C0) -> (forall q n K, dom n -> inside nt K n -> nu (S q) n = Hof (nu q) K n) ->
  forall Q K n, rho <= K -> inside nt K n -> dom n -> (az ^ Q * Cabs (Csub (F n) (series z (fun q => nu q n) Q)) <= e * cst Q K n)%R.
Proof.
  intros F nu e He SF HF HR NS NN. induction Q as [|Q IH]; intros K n HK In_n Dn.
  - rewrite pow_O, Rmult_1_l. unfold series. cbn [seq map Csum_list fold_right]. replace (Csub (F n) C0) with (F n) by ring. apply SF; [exact Dn|exact In_n|lia].
  - apply (gain (fun n => Csub (F n) (series z (fun q => nu q n) (S Q))) (fun n => Csub (F n) (series z (fun q => nu q n) Q)) e Q K n HK In_n He).
    + rewrite Hof_sub. replace (Cmul z (Csub (F n) (series z (fun q => nu q n) (S Q)))) with (Csub (Cmul z (F n)) (Cmul z (series z (fun q => nu q n) (S Q)))) by ring.
      rewrite (HR n K Dn In_n), series_next by exact z_nz.
      assert (E : series z (fun q => nu (S q) n) Q = Hof (fun n => series z (fun q => nu q n) Q) K n); [|rewrite E; ring].
      unfold series, Hof.
      rewrite (map_ext (fun q => Cdiv (nu (S q) n) (power z (S q))) (fun q => Csub (Cmul (RtoC (energy m K n)) (Cdiv (nu q n) (power z (S q)))) (Csum_list (map (fun o => Cdiv (term_at c hop kk (nu q) n o) (power z (S q))) (moves m))))).
      2:{ intros q. rewrite (NN q n K Dn In_n). unfold Hof. unfold Cdiv at 1. set (p := Cinv (power z (S q))).
          rewrite (map_ext (fun o => Cdiv (term_at c hop kk (nu q) n o) (power z (S q))) (fun o => Cmul p (term_at c hop kk (nu q) n o))) by (intros o; unfold Cdiv; fold p; ring).
          rewrite Csum_list_scal. unfold Cdiv. fold p. ring. }
      rewrite Csum_list_sub, Csum_list_scal. f_equal. generalize (seq 0 Q) as l. intros l.
      assert (SW : forall (f : nat -> move -> C) l l', Csum_list (map (fun q => Csum_list (map (f q) l')) l) = Csum_list (map (fun o => Csum_list (map (fun q => f q o) l)) l')).
      { intros f l1 l'. induction l' as [|o l' IHl].
        - cbn [map Csum_list fold_right]. induction l1 as [|q l1 IHq]; [reflexivity|]. cbn [map Csum_list fold_right]. unfold Csum_list in IHq. rewrite IHq. ring.
        - cbn [map Csum_list fold_right]. fold (Csum_list (map (fun o => Csum_list (map (fun q => f q o) l1)) l')). rewrite <- IHl.
          clear IHl. induction l1 as [|q l1 IHq]; [cbn [map Csum_list fold_right]; ring|]. cbn [map Csum_list fold_right]. unfold Csum_list in *. rewrite IHq. ring. }
      rewrite SW. f_equal. apply map_ext. intros o. unfold term_at.
      rewrite (map_ext (fun q => Cdiv (Cmul (RtoC (weight c hop o n)) (Cmul (phase kk (ahead o)) (nu q (step c o n)))) (power z (S q)))
        (fun q => Cmul (Cmul (RtoC (weight c hop o n)) (phase kk (ahead o))) (Cdiv (nu q (step c o n)) (power z (S q))))) by (intros q; unfold Cdiv; ring).
      rewrite Csum_list_scal. ring.
    + intros q Hq. destruct (classic (dom q)) as [Dq|Dq].
      * apply IH; [lia| |exact Dq]. destruct Hq as [-> | [o [Ho ->]]]; [apply (inside_mono nt K); [lia|exact In_n]|apply step_in; assumption].
      * assert (F q = C0) as -> by (destruct (classic (F q = C0)) as [E|E]; [exact E|exfalso; apply Dq, HF, E]).
        assert (series z (fun p => nu p q) Q = C0) as ->.
        { unfold series. generalize (seq 0 Q) as l. induction l as [|p l IHl]; [reflexivity|]. cbn [map Csum_list fold_right]. unfold Csum_list in IHl. rewrite IHl, (NS p q Dq). unfold Cdiv. ring. }
        replace (Csub C0 C0) with C0 by ring. rewrite Cabs_C0, Rmult_0_r. apply Rmult_le_pos; [exact He|apply cst_pos].
Qed.
End AtZ.

(** * The specification in the frame of the particle *)
Lemma inside_translated : forall n s K, inside nt K n -> inside nt (K + Z.abs s) (translated n s).
Proof. intros n s K I t x H. destruct (I _ _ H). split; [assumption|lia]. Qed.
Lemma energy_translated : forall n s K K', inside nt K n -> inside nt K' (translated n s) -> energy m K' (translated n s) = energy m K n.
Proof.
  intros n s K K' I I'. set (W := Z.max K K'). assert (J : inside nt W n) by (apply (inside_mono nt K); [unfold W; lia|exact I]). assert (J' : inside nt W (translated n s)) by (apply (inside_mono nt K'); [unfold W; lia|exact I']).
  rewrite (energy_window m K' W _ I' J'), (energy_window m K W _ I J), !energy_gsum. apply gsum_translated; [apply ph_0|exact J|exact J'].
Qed.

Definition covariant (Psi : placement -> Z -> C) : Prop := forall n s j, Psi (translated n s) (j + s) = Cmul (Cexpi (- (k * m_lattice m * IZR s))) (Psi n j).
Lemma on_H_frame : forall Psi, covariant Psi -> forall n j K E, E = energy m K (translated n (- j)) -> on_H m c E Psi n j = Cmul (phase kk j) (Hof (fun n => Psi n 0) K (translated n (- j))).
Proof.
  intros Psi Mom n j K E ->. pose proof (frame_H m c k 0 0 Psi Mom n j (energy m K (translated n (- j)))) as H.
  assert (Q : forall x y : C, Csub (Cmul (0, 0)%R x) y = Copp y) by (intros; apply Ceq; unfold Csub, Cmul, Copp, Re, Im; cbn [fst snd]; ring). rewrite Q in H.
  transitivity (Copp (Copp (on_H m c (energy m K (translated n (- j))) Psi n j))); [ring|]. rewrite H. unfold Hof. fold hop kk.
  set (S := Csum_list _). set (x := Psi (translated n (- j)) 0). rewrite Q. ring.
Qed.

Lemma vacuum_translated : forall s, translated vacuum s = vacuum.
Proof. reflexivity. Qed.

Section Moments.
Variable mu : nat -> placement -> Z -> C.
Hypothesis Mu : moments m c k mu.

Lemma mu_covariant : forall q, covariant (mu q).
Proof.
  induction q as [|q IH]; intros n s j.
  - destruct (classic (n = vacuum)) as [-> | E].
    + rewrite vacuum_translated, !(mo_start _ _ _ _ Mu). fold kk. change (phase kk (j + s) = Cmul (phase kk s) (phase kk j)). rewrite phase_add. ring.
    + destruct (occupied n E) as [t [x Hx]]. rewrite (mo_phonons _ _ _ _ Mu n) by (exists t, x; exact Hx).
      rewrite (mo_phonons _ _ _ _ Mu (translated n s)); [ring|]. exists t, (x + s). unfold translated. replace (x + s - s) with x by lia. exact Hx.
  - destruct (classic (dom n)) as [D|D].
    + pose proof D as [_ [[K I] _]]. pose proof (inside_translated n s K I) as I'.
      rewrite (mo_next _ _ _ _ Mu q n K j D I), (mo_next _ _ _ _ Mu q (translated n s) _ (j + s) (full_translated m n s D) I').
      pose proof (inside_translated n (- j) K I) as I2.
      assert (T : translated (translated n s) (- (j + s)) = translated n (- j)) by (rewrite (translated_twice m); replace (s + - (j + s)) with (- j) by lia; reflexivity).
      rewrite (on_H_frame _ IH n j (K + Z.abs (- j))) by (symmetry; apply energy_translated; assumption).
      rewrite (on_H_frame _ IH (translated n s) (j + s) (K + Z.abs (- j))).
      * rewrite T, phase_add. fold kk. change (Cexpi (- (kk * IZR s))) with (phase kk s). ring.
      * rewrite T, (energy_translated n (- j) K) by assumption. apply energy_translated; assumption.
    + rewrite (mo_support _ _ _ _ Mu _ n) by exact D. rewrite (mo_support _ _ _ _ Mu _ (translated n s)); [ring|].
      intros D'. apply D. replace n with (translated (translated n s) (- s)); [apply full_translated, D'|]. rewrite (translated_twice m). replace (s + - s) with (- 0) by lia. apply (translated_0 m).
Qed.
Lemma nu_0 : mu 0%nat vacuum 0 = C1.
Proof. rewrite (mo_start _ _ _ _ Mu). fold kk. exact (phase_0 kk). Qed.
Lemma nu_out : forall n, n <> vacuum -> mu 0%nat n 0 = C0.
Proof. intros n E. apply (mo_phonons _ _ _ _ Mu). apply occupied, E. Qed.
Lemma nu_next : forall q n K, dom n -> inside nt K n -> mu (S q) n 0 = Hof (fun n => mu q n 0) K n.
Proof.
  intros q n K D I. rewrite (mo_next _ _ _ _ Mu q n K 0 D I). rewrite (on_H_frame _ (mu_covariant q) n 0 K); rewrite (translated_0 m); [rewrite phase_0; ring|reflexivity].
Qed.

Section Exact.
Variable w eta : R.
Hypothesis eta_pos : (0 < eta)%R.
Hypothesis Hherm : hermitian (phys_env m k w eta) m.
Variable Psi : placement -> Z -> C.
Hypothesis Ex : exact_row m c k (w, eta) Psi.
Notation F := (fun n => Psi n 0).

Lemma eta_inv : (0 <= 1 / eta)%R.
Proof. left. apply Rdiv_lt_0_compat; lra. Qed.
Lemma exact_small : small (1 / eta) F.
Proof.
  apply norm_small; [exact eta_pos|]. destruct (exact_norm m c k w eta Psi Ex) as [V HV].
  exact (rows_norm m ae c k w eta eta_pos G Hlat Hherm rho rho_pos Hrho F V (exact_support m c k w eta Psi Ex) (exact_rows m c k w eta Psi Ex) HV).
Qed.
Lemma exact_Hof : forall n K s, dom n -> inside nt K n -> (n = vacuum -> s = C1) -> (n <> vacuum -> s = C0) -> Cmul (w, eta) (F n) = Cadd s (Hof F K n).
Proof.
  intros n K s D I S1 S0. apply row_Hof. destruct (tot_int nt K n) as [p Ep]. apply (exact_rows m c k w eta Psi Ex K p n s D I); [|exact S1|exact S0].
  fold nt. rewrite Ep. lra.
Qed.

Theorem exact_expand : forall Q, (Cabs (w, eta) ^ Q * Cabs (Csub (Psi vacuum 0) (series (w, eta) (fun q => mu q vacuum 0) Q)) <= 1 / eta * cst Q rho vacuum)%R.
Proof.
  intros Q. apply (expand w eta eta_pos F (fun q n => mu q n 0) (1 / eta) eta_inv exact_small (exact_support m c k w eta Psi Ex)).
  - intros n K D I. destruct (classic (n = vacuum)) as [E|E].
    + rewrite E at 2. rewrite nu_0. apply exact_Hof; [exact D|exact I|reflexivity|contradiction].
    + rewrite (nu_out n E). apply exact_Hof; [exact D|exact I|contradiction|reflexivity].
  - intros q n D. apply (mo_support _ _ _ _ Mu), D.
  - exact nu_next.
  - lia.
  - apply inside_vacuum.
  - exact (full_vacuum m ae G).
Qed.
End Exact.
End Moments.

(** * The computed functional *)
Section Computed.
Variable w eta : R.
Hypothesis eta_pos : (0 < eta)%R.
Hypothesis Hherm : hermitian (phys_env m k w eta) m.
Variable Psi : placement -> Z -> C.
Hypothesis Ex : exact_row m c k (w, eta) Psi.
Variable mm : model R.
Variable aa : Z.
Hypothesis Gm : good_model mm aa.
Hypothesis E1 : m_ham m = m_ham mm.
Hypothesis E2 : m_lattice m = m_lattice mm.
Hypothesis E3 : m_ntypes m = m_ntypes mm.
Hypothesis E4 : m_mps m = m_mps mm.
Variable Ps : placement -> Z -> C.
Hypothesis Ro : greens_row mm aa c k (w, eta) Ps.
Notation F' := (fun n => Ps n 0).

Lemma allowed_Hof : forall n K s, allowed mm aa n -> inside nt K n -> (n = vacuum -> s = C1) -> (n <> vacuum -> s = C0) -> Cmul (w, eta) (F' n) = Cadd s (Hof F' K n).
Proof.
  intros n K s A I S1 S0. apply row_Hof. unfold hop, kk. rewrite <- (moves_same m mm E1), E1, E2. destruct (classic (n = vacuum)) as [E|E].
  - rewrite (S1 E), E, energy_vacuum. exact (row_vac mm aa c k w eta Ps Ro).
  - rewrite (S0 E). destruct A as [A|[a [x0 [Sa Ea]]]]; [exfalso; apply E; apply placement_eq; exact A|]. assert (En : n = translated (cloud a) x0) by (apply placement_eq; exact Ea). clear Ea.
    destruct (space_unfold mm aa a Sa) as [V [_ [_ [Nt [_ [[z [Sh _]] _]]]]]].
    destruct (energy_list mm aa Gm a Sa) as [le El]. pose proof (row_cloud mm aa c k w eta Ps Ro a le x0 Sa El) as R2.
    replace (energy m K n) with (phonon_energy le); [rewrite En; exact R2|].
    rewrite (energy_sum mm a le (gm_freqs _ _ Gm) Nt El). rewrite energy_gsum, En. fold nt. rewrite <- E1, <- E3. symmetry.
    apply (cloud_sum (fun t => nth t (h_freqs (m_ham m)) 0%R) nt z a x0 K (valid_wf a V)); [unfold nt; rewrite E3; exact Sh|rewrite <- En; exact I].
Qed.
Lemma computed_small : small (1 / eta) F'.
Proof. apply norm_small; [exact eta_pos|]. exact (truncated_norm m c k w eta eta_pos Hlat Hherm rho rho_pos Hrho mm aa Gm E1 E2 E3 Ps Ro). Qed.

Theorem computed_close : forall d, (forall n, lv d n -> allowed mm aa n) ->
  (Cabs (w, eta) ^ (2 * d + 2) * Cabs (Csub (Psi vacuum 0) (Ps vacuum 0)) <= 2 * (1 / eta) * cst (2 * d + 2) rho vacuum)%R.
Proof.
  intros d HA. destruct (moves_conj m m c k w eta Hlat eq_refl Hherm) as [l [Pl Fl]].
  apply (close w eta l Pl Fl (fun n => Psi n 0) F' (1 / eta) d (eta_inv eta eta_pos) (exact_small w eta eta_pos Hherm Psi Ex) computed_small
    (exact_support m c k w eta Psi Ex) (truncated_full m ae c k w eta G mm aa E3 E4 Ps Ro)) with (l := 0%nat).
  - intros n K H Nv I. rewrite (exact_Hof w eta Psi Ex n K C0); [ring|apply (exact_support m c k w eta Psi Ex), H|exact I|contradiction|reflexivity].
  - intros n K H Nv I. rewrite (allowed_Hof n K C0); [ring| |exact I|contradiction|reflexivity].
    destruct (classic (allowed mm aa n)) as [A|A]; [exact A|]. exfalso. apply H. apply (gr_support _ _ _ _ _ _ Ro), A.
  - intros n K L I. pose proof (lv_full d n L) as D. pose proof (HA n L) as A. replace (Cmul (w, eta) (Csub (Psi n 0) (Ps n 0))) with (Csub (Cmul (w, eta) (Psi n 0)) (Cmul (w, eta) (Ps n 0))) by ring.
    destruct (classic (n = vacuum)) as [E|E].
    + rewrite (exact_Hof w eta Psi Ex n K C1), (allowed_Hof n K C1); try assumption; try (intros; reflexivity); try contradiction. ring.
    + rewrite (exact_Hof w eta Psi Ex n K C0), (allowed_Hof n K C0); try assumption; try (intros; reflexivity); try contradiction. ring.
  - lia.
  - lia.
  - lia.
  - apply inside_vacuum.
  - constructor.
Qed.
End Computed.

(** * Reached states *)
Lemma lv_reached : forall q n, lv q n -> exists j, reached m c q (translated n j) j.
Proof.
  intros q n H. induction H as [|q n L [j IH]|q n o L [j IH] Ho Dn].
  - exists 0. constructor.
  - exists j. apply by_stay, IH.
  - assert (T : forall a b : placement, (forall t x, a t x = b t x) -> a = b) by (intros a b; apply placement_eq).
    destruct o as [b|h].
    + exists (j + ahead (Hop b)). replace (translated (step c (Hop b) n) (j + ahead (Hop b))) with (translated n j); [apply by_hop; [exact IH|destruct b; cbn [ahead]; lia]|].
      apply T. intros t x. unfold translated at 2. rewrite step_hop. unfold translated. f_equal. lia.
    + assert (Hh : In h (h_terms (m_ham m))). { destruct Ho as [X|[X|Ho]]; [discriminate X|discriminate X|]. apply in_map_iff in Ho. destruct Ho as [h' [X Hh]]. injection X as ->. exact Hh. }
      assert (E : after c h (translated n j) j = translated (step c (Act h) n) (target h j)).
      { apply T. intros t x. unfold translated at 2. rewrite step_act. unfold after, changed, translated, sg. replace (target h j) with (j + target h 0) by (unfold target; lia). replace (mode c h j) with (j + mode c h 0) by (unfold mode; lia).
        replace (x - (j + target h 0) + target h 0) with (x - j) by lia. f_equal.
        replace (x - (j + target h 0) =? mode c h 0 - target h 0) with (x =? j + mode c h 0); [reflexivity|].
        destruct (Z.eqb_spec x (j + mode c h 0)), (Z.eqb_spec (x - (j + target h 0)) (mode c h 0 - target h 0)); try reflexivity; lia. }
      exists (target h j). rewrite <- E. apply by_act; [exact IH|exact Hh|]. rewrite E. apply full_translated, Dn.
Qed.
End Orders.

Lemma allowed_translated : forall (m : model R) ae n s, allowed m ae (translated n s) -> allowed m ae n.
Proof.
  intros m ae n s [H|[a [x0 [Sa H]]]].
  - left. intros t x. specialize (H t (x + s)). unfold translated in H. replace (x + s - s) with x in H by lia. exact H.
  - right. exists a, (x0 - s). split; [exact Sa|]. intros t x. specialize (H t (x + s)). unfold translated in *. replace (x + s - s) with x in H by lia. rewrite H. f_equal. lia.
Qed.

(** * The functionals <k| H^q exist *)
Section Existence.
Variable m : model R.
Variable ae c : Z.
Variable k : R.
Hypothesis G : good_model m ae.
Let nt := m_ntypes m.
Let kk := (k * m_lattice m)%R.
Notation dom := (full m).
Notation HH := (Hof m c k).

Fixpoint isnu (q : nat) (F : placement -> C) : Prop :=
  match q with
  | O => F vacuum = C1 /\ forall n, n <> vacuum -> F n = C0
  | S q => exists F0, isnu q F0 /\ (forall n K, dom n -> inside nt K n -> F n = HH F0 K n) /\ forall n, ~ dom n -> F n = C0
  end.
Lemma isnu_unique : forall q F F', isnu q F -> isnu q F' -> F = F'.
Proof.
  induction q as [|q IH]; intros F F' H H'; apply functional_extensionality; intros n.
  - destruct H as [H0 H1], H' as [H0' H1']. destruct (classic (n = vacuum)) as [-> | E]; [congruence|rewrite H1, H1' by exact E; reflexivity].
  - destruct H as [F0 [H0 [H1 H2]]], H' as [F0' [H0' [H1' H2']]]. pose proof (IH _ _ H0 H0') as E. subst F0'. destruct (classic (dom n)) as [D|D].
    + pose proof D as [_ [[K I] _]]. rewrite (H1 n K D I), (H1' n K D I). reflexivity.
    + rewrite H2, H2' by exact D. reflexivity.
Qed.
Lemma Hof_window : forall F K K' n, inside nt K n -> inside nt K' n -> HH F K n = HH F K' n.
Proof. intros F K K' n I I'. unfold Hof. rewrite (energy_window m K K' n I I'). reflexivity. Qed.
Lemma isnu_ex : forall q, exists F, isnu q F.
Proof.
  induction q as [|q [F0 H0]].
  - destruct (complex_choice (fun n z => (n = vacuum /\ z = C1) \/ (n <> vacuum /\ z = C0))) as [F HF].
    + intros n. destruct (classic (n = vacuum)) as [E|E]; [exists C1; left; auto|exists C0; right; auto].
    + intros n x y [[E ->]|[E ->]] [[E' ->]|[E' ->]]; try reflexivity; contradiction.
    + exists F. split; [destruct (HF vacuum) as [[_ H]|[H _]]; [exact H|contradiction]|]. intros n E. destruct (HF n) as [[H _]|[_ H]]; [contradiction|exact H].
  - destruct (complex_choice (fun n z => (dom n /\ forall K, inside nt K n -> z = HH F0 K n) \/ (~ dom n /\ z = C0))) as [F HF].
    + intros n. destruct (classic (dom n)) as [D|D]; [|exists C0; right; auto]. pose proof D as [_ [[K I] _]]. exists (HH F0 K n). left. split; [exact D|]. intros K' I'. apply Hof_window; assumption.
    + intros n x y [[D H]|[D H]] [[D' H']|[D' H']]; try contradiction; [|congruence]. pose proof D as [_ [[K I] _]]. rewrite (H K I), (H' K I). reflexivity.
    + exists F. exists F0. split; [exact H0|]. split.
      * intros n K D I. destruct (HF n) as [[_ H]|[H _]]; [apply H, I|contradiction].
      * intros n D. destruct (HF n) as [[H _]|[_ H]]; [contradiction|exact H].
Qed.

Lemma spread_covariant : forall F, covariant m k (spread m k F).
Proof.
  intros F n s j. unfold spread. fold kk. change (Cexpi (- (kk * IZR s))) with (phase kk s). rewrite phase_add, (translated_twice m). replace (s + - (j + s)) with (- j) by lia. ring.
Qed.

Theorem moments_ex : exists mu, moments m c k mu.
Proof.
  destruct (complex_choice (fun (p : nat * placement) z => exists F, isnu (fst p) F /\ z = F (snd p))) as [f Hf].
  - intros [q n]. destruct (isnu_ex q) as [F H]. exists (F n), F. auto.
  - intros [q n] x y [F [H ->]] [F' [H' ->]]. cbn [fst snd] in *. rewrite (isnu_unique q F F' H H'). reflexivity.
  - set (nu := fun q n => f (q, n)).
    assert (N : forall q, isnu q (nu q)). { intros q. destruct (isnu_ex q) as [F H]. replace (nu q) with F; [exact H|]. apply functional_extensionality. intros n. destruct (Hf (q, n)) as [F' [H' E]]. cbn [fst snd] in *. unfold nu. rewrite E, (isnu_unique q F F' H H'). reflexivity. }
    assert (NN : forall q n K, dom n -> inside nt K n -> nu (S q) n = HH (nu q) K n). { intros q n K D I. destruct (N (S q)) as [F0 [H0 [H1 _]]]. rewrite (isnu_unique q (nu q) F0 (N q) H0). apply H1; assumption. }
    assert (DN : forall n j, ~ dom n -> ~ dom (translated n (- j))).
    { intros n j D D'. apply D. replace n with (translated (translated n (- j)) j); [apply full_translated, D'|]. rewrite (translated_twice m). replace (- j + j) with (- 0) by lia. apply (translated_0 m). }
    exists (fun q => spread m k (nu q)). constructor.
    + intros q n j D. unfold spread. apply (DN n j) in D. replace (nu q (translated n (- j))) with C0; [ring|]. symmetry. destruct q as [|q].
      * apply (N 0%nat). intros E. apply D. rewrite E. exact (full_vacuum m ae G).
      * destruct (N (S q)) as [F0 [_ [_ H]]]. apply H, D.
    + intros j. unfold spread. rewrite vacuum_translated, (proj1 (N 0%nat)). fold kk. change (Cexpi (- (kk * IZR j))) with (phase kk j). ring.
    + intros n j [t [x Hx]]. unfold spread. rewrite (proj2 (N 0%nat)); [ring|]. intros E. apply Hx. apply (f_equal (fun f => f t (x - j))) in E. unfold translated, vacuum in E. replace (x - j - - j) with x in E by lia. exact E.
    + intros q n K j D I. pose proof (inside_translated m n (- j) K I) as I'.
      rewrite (on_H_frame m c k _ (spread_covariant (nu q)) n j (K + Z.abs (- j))) by (symmetry; apply (energy_translated m); assumption).
      rewrite spread_0. unfold spread. f_equal. apply NN; [apply full_translated, D|exact I'].
Qed.

Theorem moments_unique : forall mu mu', moments m c k mu -> moments m c k mu' -> forall q n j, mu q n j = mu' q n j.
Proof.
  intros mu mu' M M'. assert (E : forall q n, mu q n 0 = mu' q n 0).
  { induction q as [|q IH]; intros n.
    - destruct (classic (n = vacuum)) as [-> | E]; [rewrite (nu_0 m c k mu M), (nu_0 m c k mu' M'); reflexivity|rewrite (nu_out m c k mu M n E), (nu_out m c k mu' M' n E); reflexivity].
    - destruct (classic (dom n)) as [D|D]; [|rewrite (mo_support _ _ _ _ M), (mo_support _ _ _ _ M') by exact D; reflexivity].
      pose proof D as [_ [[K I] _]]. rewrite (nu_next m c k mu M q n K D I), (nu_next m c k mu' M' q n K D I). f_equal. apply functional_extensionality. exact IH. }
  intros q n j. rewrite (frame m k (mu q) (mu_covariant m c k mu M q) n j), (frame m k (mu' q) (mu_covariant m c k mu' M' q) n j), E. reflexivity.
Qed.
End Existence.

(** * Room for what is reached *)
Section Room.
Variable m : model R.
Variable ae c : Z.
Hypothesis G : good_model m ae.
Variable rho r : Z.
Hypothesis rho_pos : 0 <= rho.
Hypothesis Hrho : Spec_extent.couples_within m c rho.
Hypothesis Hj : jumps_within m r.
Let nt := m_ntypes m.
Notation dom := (full m).

Lemma reached_full : forall q n j, reached m c q n j -> dom n.
Proof. intros q n j H. induction H; [exact (full_vacuum m ae G)|assumption|assumption|assumption]. Qed.
Lemma reached_lv : forall q n j, reached m c q n j -> lv m c q (translated n (- j)).
Proof.
  intros q n j H. induction H as [|q n j H IH|q n j s H IH Hs|q n j h H IH Hh Dn].
  - rewrite vacuum_translated. constructor.
  - apply lv_S, IH.
  - set (b := if s =? 1 then true else false). assert (A : ahead (Hop b) = s) by (unfold b; destruct Hs as [-> | ->]; reflexivity).
    assert (E : translated n (- (j + s)) = step c (Hop b) (translated n (- j))) by (apply placement_eq; intros t x; rewrite step_hop, A; unfold translated; f_equal; lia).
    rewrite E. apply lv_M; [exact IH|destruct b; [left|right; left]; reflexivity|]. rewrite <- E. apply full_translated. apply (reached_full q n j H).
  - assert (E : translated (after c h n j) (- target h j) = step c (Act h) (translated n (- j))).
    { apply placement_eq. intros t x. rewrite step_act. unfold after, changed, translated, sg. replace (target h j) with (j + target h 0) by (unfold target; lia). replace (mode c h j) with (j + mode c h 0) by (unfold mode; lia).
      replace (x - - (j + target h 0)) with (x + target h 0 - - j) by lia. f_equal.
      replace (x + target h 0 - - j =? j + mode c h 0) with (x =? mode c h 0 - target h 0); [reflexivity|].
      destruct (Z.eqb_spec x (mode c h 0 - target h 0)), (Z.eqb_spec (x + target h 0 - - j) (j + mode c h 0)); try reflexivity; lia. }
    rewrite E. apply lv_M; [exact IH|right; right; apply in_map; exact Hh|]. rewrite <- E. apply full_translated, Dn.
Qed.

(** The phonons lie within [rho] of the path of the particle. *)
Definition path (n : placement) (a b : Z) : Prop := a <= 0 <= b /\ forall t x, n t x <> 0 -> (t < nt)%nat /\ a - rho <= x <= b + rho.
Lemma path_step : forall n a b o, In o (moves m) -> path n a b -> exists a' b', path (step c o n) a' b' /\ b' - a' <= b - a + Z.abs (ahead o).
Proof.
  intros n a b o Ho [AB P]. exists (Z.min (a - ahead o) 0), (Z.max (b - ahead o) 0). split; [|lia]. split; [lia|]. intros t x H. unfold step, translated in H.
  destruct o as [d|h].
  - cbn [moved] in H. destruct (P _ _ H). split; [assumption|lia].
  - pose proof (moves_fit m ae c G rho Hrho (Act h) Ho) as [F1 F2]. cbn [moved] in H. unfold after, changed in H.
    destruct (Nat.eqb t (ht_index h) && (x - - ahead (Act h) =? mode c h 0)) eqn:E.
    + apply andb_prop in E. destruct E as [X1 X2]. apply Nat.eqb_eq in X1. apply Z.eqb_eq in X2. subst t. split; [exact F2|lia].
    + rewrite Z.add_0_r in H. destruct (P _ _ H). split; [assumption|lia].
Qed.
Lemma path_inside : forall n a b, path n a b -> inside nt (b - a + rho) n.
Proof. intros n a b [AB P] t x H. destruct (P t x H). split; [assumption|lia]. Qed.
Lemma moves_jump : forall o, In o (moves m) -> Z.abs (ahead o) <= r.
Proof.
  intros o [<- | [<- | Ho]]; [cbn; destruct Hj; lia|cbn; destruct Hj; lia|]. apply in_map_iff in Ho. destruct Ho as [h [<- Hh]]. apply Hj, Hh.
Qed.
Lemma tot_move : forall n o K K', In o (moves m) -> inside nt K n -> inside nt K' (step c o n) -> (tot nt K' (step c o n) <= tot nt K n + dt o)%R.
Proof.
  intros n o K K' Ho I I'. set (W := Z.max (Z.max K K') rho). assert (J : inside nt W n) by (apply (inside_mono nt K); [unfold W; lia|exact I]).
  assert (J' : inside nt W (step c o n)) by (apply (inside_mono nt K'); [unfold W; lia|exact I']).
  rewrite (tot_window nt K W n I J), (tot_window nt K' W _ I' J').
  pose proof (tot_step nt c rho W o n ltac:(unfold W; lia) (moves_fit m ae c G rho Hrho o Ho) J J') as T. unfold Rabs in T. destruct (Rcase_abs _) in T; lra.
Qed.
Lemma dt_le : forall o, (0 <= dt o <= 1)%R.
Proof. intros [b|h]; cbn [dt]; lra. Qed.

Lemma lv_path : forall q n, lv m c q n -> exists a b, path n a b /\ b - a <= r * Z.of_nat q /\ (tot nt (b - a + rho) n <= INR q)%R.
Proof.
  intros q n H. induction H as [|q n L [a [b [P [B T]]]]|q n o L [a [b [P [B T]]]] Ho Dn].
  - exists 0, 0. split; [split; [lia|intros t x H; unfold vacuum in H; lia]|]. split; [lia|]. rewrite tot_vacuum. cbn. lra.
  - exists a, b. split; [exact P|]. destruct Hj. split; [lia|]. rewrite S_INR. lra.
  - destruct (path_step n a b o Ho P) as [a' [b' [P' B']]]. exists a', b'. split; [exact P'|]. pose proof (moves_jump o Ho). split; [lia|].
    pose proof (tot_move n o _ _ Ho (path_inside n a b P) (path_inside _ a' b' P')). pose proof (dt_le o). rewrite S_INR. lra.
Qed.

(** If no operator moves the particle, each move spends on one or the other. *)
Lemma lv_onsite : (forall h, In h (h_terms (m_ham m)) -> target h 0 = 0) ->
  forall q n, lv m c q n -> exists a b, path n a b /\ (IZR (b - a) + tot nt (b - a + rho) n <= INR q)%R.
Proof.
  intros H0 q n H. induction H as [|q n L [a [b [P T]]]|q n o L [a [b [P T]]] Ho Dn].
  - exists 0, 0. split; [split; [lia|intros t x H; unfold vacuum in H; lia]|]. rewrite tot_vacuum. cbn. lra.
  - exists a, b. split; [exact P|]. rewrite S_INR. lra.
  - destruct (path_step n a b o Ho P) as [a' [b' [P' B']]]. exists a', b'. split; [exact P'|].
    pose proof (tot_move n o _ _ Ho (path_inside n a b P) (path_inside _ a' b' P')). rewrite S_INR.
    assert (D : (IZR (Z.abs (ahead o)) + dt o <= 1)%R).
    { destruct o as [[|]|h]; cbn [ahead dt]; [cbn; lra|cbn; lra|]. rewrite (H0 h); [cbn; lra|]. destruct Ho as [X|[X|Ho]]; [discriminate X|discriminate X|]. apply in_map_iff in Ho. destruct Ho as [h' [X Hh]]. injection X as ->. exact Hh. }
    apply IZR_le in B'. rewrite plus_IZR in B'. lra.
Qed.

(** A state with few phonons close to each other is in the space. *)
Lemma fits_allowed : forall mm aa n K p M, m_ntypes m = m_ntypes mm -> room m mm aa M p -> dom n -> inside nt K n -> (tot nt K n <= IZR p)%R -> 1 <= M ->
  (forall t x t' y, n t x <> 0 -> n t' y <> 0 -> y - x < M) -> allowed mm aa n.
Proof.
  intros mm aa n K p M E3 [E4 [Ra Rt]] Dn In_n Tn HM Cl. destruct (classic (n = vacuum)) as [E|E]; [left; rewrite E; reflexivity|]. right.
  destruct (cloud_of nt K n In_n (full_nonneg m n Dn) E) as [a [x0 [z [V [NF [Sh [Hz [En [Oz On]]]]]]]]].
  pose proof (valid_wf a V) as Wf. assert (Nt : ntypes a = m_ntypes m) by (unfold ntypes; rewrite Sh; reflexivity). exists a, x0. split; [|intros t x; rewrite En; reflexivity].
  assert (ZM : Z.of_nat z <= M).
  { destruct V as [_ [_ [_ [X|TT]]]]; [contradiction|]. destruct (TT 0%nat) as [[t [x [L0 [X0 O0]]]] [t' [y [L1 [X1 O1]]]]]; [unfold ndim; rewrite Sh; cbn; lia|].
    unfold ndim in L0, L1. rewrite Sh in L0, L1, X1. cbn [length nth Nat.sub] in L0, L1, X1.
    destruct x as [|x [|? ?]]; [discriminate L0| |discriminate L0]. destruct y as [|y [|? ?]]; [discriminate L1| |discriminate L1]. cbn [nth] in X0, X1. subst x y.
    assert (A : n t x0 <> 0) by (rewrite En; unfold translated, cloud; replace (x0 - x0) with 0 by lia; lia).
    assert (B : n t' (x0 + (Z.of_nat z - 1)) <> 0) by (rewrite En; unfold translated, cloud; replace (x0 + (Z.of_nat z - 1) - x0) with (Z.of_nat z - 1) by lia; lia).
    specialize (Cl _ _ _ _ A B). lia. }
  assert (TP : forall t, (t < nt)%nat -> 0 <= total_type a t).
  { intros t Ht. pose proof (occ_type a t [0] V ltac:(rewrite Nt; exact Ht)). pose proof (valid_nonneg a V (Z.of_nat t :: [0])) as Q. unfold occ in *. lia. }
  assert (TT : forall t, (t < nt)%nat -> total_type a t <= p).
  { intros t Ht. apply le_IZR. eapply Rle_trans; [|exact Tn]. rewrite En. unfold tot.
    assert (Q : gsum (fun _ v => IZR v) (translated (cloud a) x0) (modes nt K) = Rsum (map (fun t => 1 * IZR (total_type a t))%R (seq 0 nt))).
    { rewrite <- (cloud_sum (fun _ => 1%R) nt z a x0 K Wf Sh) by (rewrite <- En; exact In_n). unfold gsum. apply Rsum_ext. intros; ring. }
    rewrite Q. apply Rle_trans with (1 * IZR (total_type a t))%R; [lra|].
    assert (I : In t (seq 0 nt)) by (apply in_seq; lia).
    assert (P0 : forall t, In t (seq 0 nt) -> (0 <= 1 * IZR (total_type a t))%R) by (intros u Hu; apply in_seq in Hu; rewrite Rmult_1_l; apply IZR_le; apply TP; lia).
    clear Q. induction (seq 0 nt) as [|u l IH]; [destruct I|]. rewrite Rsum_cons. destruct I as [-> | I].
    - assert (0 <= Rsum (map (fun t => 1 * IZR (total_type a t))%R l))%R by (apply Rsum_nonneg; intros v Hv; apply P0; right; exact Hv). lra.
    - specialize (IH I ltac:(intros v Hv; apply P0; right; exact Hv)). pose proof (P0 u (or_introl eq_refl)). lra. }
  apply space_intro; [exact V|exact NF|exists z; rewrite <- E3; split; [exact Sh|lia]| | |].
  - intros q Hq t x. rewrite <- E4 in Hq. destruct (On t x) as [-> | [y ->]]; [pose proof (gm_mps _ _ G q Hq); lia|apply Dn; exact Hq].
  - intros t Ht. rewrite <- E3 in Ht. destruct (Rt t Ht) as [R1 R2]. split; [lia|]. intros x y Hx Hy. apply Oz in Hx, Hy. lia.
  - intros t Ht. rewrite <- E3 in Ht. destruct (Rt t Ht) as [R1 R2]. specialize (TT t Ht). lia.
Qed.

Theorem room_covers : forall mm aa d, m_ntypes m = m_ntypes mm -> room m mm aa (r * Z.of_nat d + 2 * rho + 1) (Z.of_nat d) -> covers m c mm aa d.
Proof.
  intros mm aa d E3 Rm. split; [apply Rm|]. intros n j Rn. pose proof (reached_full d n j Rn) as Dn. apply reached_lv in Rn. apply (allowed_translated mm aa n (- j)).
  destruct (lv_path d _ Rn) as [a [b [P [B T]]]]. destruct Hj as [R1 _].
  apply (fits_allowed mm aa _ (b - a + rho) (Z.of_nat d) (r * Z.of_nat d + 2 * rho + 1) E3 Rm); [apply full_translated, Dn|apply path_inside, P|rewrite <- INR_IZR_INZ; exact T|nia|].
  intros t x t' y Hx Hy. apply P in Hx. apply P in Hy. lia.
Qed.

(** On-site operators that do not move the particle (Holstein). *)
Theorem onsite_covers : forall mm aa d, m_ntypes m = m_ntypes mm -> rho = 0 -> (forall h, In h (h_terms (m_ham m)) -> target h 0 = 0) ->
  room m mm aa (Z.max 1 (Z.of_nat d - 1)) (Z.of_nat d) -> covers m c mm aa d.
Proof.
  intros mm aa d E3 R0 H0 Rm. split; [apply Rm|]. intros n j Rn. pose proof (reached_full d n j Rn) as Dn. apply reached_lv in Rn. apply (allowed_translated mm aa n (- j)).
  set (n' := translated n (- j)) in *. assert (Dn' : dom n') by (apply full_translated, Dn).
  destruct (lv_onsite H0 d _ Rn) as [a [b [P T]]]. pose proof P as [AB _]. pose proof (path_inside n' a b P) as I.
  assert (Q0 : (0 <= IZR (b - a))%R) by (apply IZR_le; lia).
  assert (T' : (tot nt (b - a + rho) n' <= IZR (Z.of_nat d))%R) by (rewrite <- INR_IZR_INZ; lra).
  apply (fits_allowed mm aa _ (b - a + rho) (Z.of_nat d) (Z.max 1 (Z.of_nat d - 1)) E3 Rm Dn' I T'); [lia|].
  intros t x t' y Hx Hy. destruct (Z_lt_le_dec x y) as [XY|XY]; [|lia].
  assert (T2 : (2 <= tot nt (b - a + rho) n')%R).
  { pose proof (full_nonneg m n' Dn') as NN. pose proof (I _ _ Hx) as Ix. pose proof (I _ _ Hy) as Iy. pose proof (NN t x). pose proof (NN t' y).
    assert (A : (1 <= IZR (n' t x))%R) by (apply IZR_le; lia). assert (B : (1 <= IZR (n' t' y))%R) by (apply IZR_le; lia).
    assert (M1 : In (t, x) (modes nt (b - a + rho))) by (apply in_modes; exact Ix). assert (M2 : In (t', y) (modes nt (b - a + rho))) by (apply in_modes; exact Iy).
    assert (NE : (t, x) <> (t', y)) by (intros X; injection X as _ X; lia). unfold tot, gsum.
    apply in_split in M1. destruct M1 as [l1 [l2 E]]. rewrite E in *. rewrite Rsum_app, Rsum_cons. unfold at_mode at 2. cbn [fst snd].
    assert (PP : forall l, (0 <= Rsum (map (fun p => IZR (at_mode n' p)) l))%R) by (intros l; apply Rsum_nonneg; intros p _; apply IZR_le; apply NN).
    assert (IN : forall l, In (t', y) l -> (1 <= Rsum (map (fun p => IZR (at_mode n' p)) l))%R).
    { intros l Hl. apply in_split in Hl. destruct Hl as [u [v ->]]. rewrite Rsum_app, Rsum_cons. unfold at_mode at 2. cbn [fst snd]. pose proof (PP u). pose proof (PP v). lra. }
    pose proof (PP l1). pose proof (PP l2). apply in_app_or in M2. destruct M2 as [M2|[M2|M2]]; [pose proof (IN _ M2); lra|contradiction|pose proof (IN _ M2); lra]. }
  assert (LE : b - a <= Z.of_nat d - 2). { apply le_IZR. rewrite (minus_IZR (Z.of_nat d)), <- (INR_IZR_INZ d). lra. }
  apply P in Hx. apply P in Hy. lia.
Qed.
End Room.

(** * The coefficients of an expansion *)
Lemma Cabs_iy : forall y, (0 < y)%R -> Cabs (0%R, y) = y.
Proof. intros y H. unfold Cabs, Cnorm2, Re, Im. cbn [fst snd]. rewrite Rmult_0_l, Rplus_0_l. apply sqrt_square. lra. Qed.
Lemma Cabs_Cinv : forall z, z <> C0 -> Cabs (Cinv z) = (/ Cabs z)%R.
Proof.
  intros z H. pose proof (Cabs_pos z H) as P. apply (Rmult_eq_reg_r (Cabs z)); [|lra]. rewrite <- Cabs_mul, Cinv_l by exact H. rewrite Rinv_l by lra.
  unfold Cabs, Cnorm2, C1, Re, Im. cbn [fst snd]. rewrite Rmult_1_l, Rmult_0_l, Rplus_0_r. apply sqrt_1.
Qed.
Lemma Cabs_power : forall z q, Cabs (power z q) = (Cabs z ^ q)%R.
Proof.
  intros z q. induction q as [|q IH]; cbn [power pow]; [unfold Cabs, Cnorm2, C1, Re, Im; cbn [fst snd]; rewrite Rmult_1_l, Rmult_0_l, Rplus_0_r; apply sqrt_1|]. rewrite Cabs_mul, IH. reflexivity.
Qed.
Lemma series_small : forall b Q, exists S, (0 <= S)%R /\ forall y, (1 <= y)%R -> (y * Cabs (series (0%R, y) b Q) <= S)%R.
Proof.
  intros b Q. exists (Rsum (map (fun q => Cabs (b q)) (seq 0 Q))). split; [apply Rsum_nonneg; intros; apply Cabs_ge0|]. intros y Hy. unfold series.
  eapply Rle_trans; [apply Rmult_le_compat_l; [lra|apply Cabs_list]|]. generalize (seq 0 Q) as l. induction l as [|q l IH]; [unfold Rsum; cbn; lra|].
  rewrite !Rsum_cons, Rmult_plus_distr_l. apply Rplus_le_compat; [|exact IH]. assert (N : (0%R, y) <> C0) by (intros E; injection E; lra). unfold Cdiv. rewrite Cabs_mul, Cabs_Cinv by (apply power_nz, N).
  rewrite Cabs_power, Cabs_iy by lra. assert (P : (1 <= y ^ q)%R) by (apply pow_R1_Rle; exact Hy). cbn [pow].
  replace (y * (Cabs (b q) * / (y * y ^ q)))%R with (Cabs (b q) * / y ^ q)%R by (field; split; lra). rewrite <- (Rmult_1_r (Cabs (b q))) at 2.
  apply Rmult_le_compat_l; [apply Cabs_ge0|]. rewrite <- Rinv_1. apply Rinv_le_contravar; lra.
Qed.
Lemma le_all : forall a S, (forall y, 1 <= y -> y * a <= S)%R -> (a <= 0)%R.
Proof.
  intros a S H. destruct (Rle_lt_dec a 0) as [L|L]; [exact L|exfalso]. assert (P : (0 <= Rabs S)%R) by apply Rabs_pos. pose proof (Rle_abs S) as A.
  assert (Y : (1 <= 1 + Rabs S / a)%R). { assert (0 <= Rabs S / a)%R by (apply Rmult_le_pos; [exact P|left; apply Rinv_0_lt_compat; exact L]). lra. }
  specialize (H _ Y). replace ((1 + Rabs S / a) * a)%R with (a + Rabs S)%R in H by (field; lra). lra.
Qed.
Lemma series_zero : forall Q b B, (forall y, 1 <= y -> y ^ S Q * Cabs (series (0%R, y) b Q) <= B)%R -> forall q, (q < Q)%nat -> b q = C0.
Proof.
  induction Q as [|Q IH]; intros b B H q Hq; [lia|].
  assert (NZ : forall y, (1 <= y)%R -> (0%R, y) <> C0) by (intros y Hy E; injection E; lra).
  assert (B0 : (0 <= B)%R). { eapply Rle_trans; [|apply (H 1%R); lra]. apply Rmult_le_pos; [apply pow_le; lra|apply Cabs_ge0]. }
  assert (E0 : b 0%nat = C0).
  { destruct (series_small (fun q => b (S q)) Q) as [S0 [P0 HS]].
    assert (A : (Cabs (b 0%nat) <= 0)%R).
    { apply (le_all _ (B + S0)). intros y Hy. pose proof (series_next (0%R, y) b Q (NZ y Hy)) as E.
      assert (X : b 0%nat = Csub (Cmul (0%R, y) (series (0%R, y) b (S Q))) (series (0%R, y) (fun q => b (S q)) Q)) by (rewrite E; ring). rewrite X.
      eapply Rle_trans; [apply Rmult_le_compat_l; [lra|apply Cabs_sub]|]. rewrite Rmult_plus_distr_l. apply Rplus_le_compat; [|apply HS, Hy].
      rewrite Cabs_mul, Cabs_iy by lra. eapply Rle_trans; [|apply (H y Hy)]. rewrite <- Rmult_assoc. apply Rmult_le_compat_r; [apply Cabs_ge0|]. cbn [pow].
      assert (1 <= y ^ Q)%R by (apply pow_R1_Rle; exact Hy). rewrite <- (Rmult_1_r y) at 2. nra. }
    destruct (classic (b 0%nat = C0)) as [E|E]; [exact E|]. pose proof (Cabs_pos _ E). lra. }
  destruct q as [|q]; [exact E0|]. apply (IH (fun q => b (S q)) B); [|lia].
  intros y Hy. pose proof (series_next (0%R, y) b Q (NZ y Hy)) as E. rewrite E0 in E.
  assert (X : series (0%R, y) (fun q => b (S q)) Q = Cmul (0%R, y) (series (0%R, y) b (S Q))) by (rewrite E; ring). rewrite X, Cabs_mul, Cabs_iy by lra.
  eapply Rle_trans; [|apply (H y Hy)]. right. cbn [pow]. ring.
Qed.
Lemma series_sub : forall z a b Q, series z (fun q => Csub (a q) (b q)) Q = Csub (series z a Q) (series z b Q).
Proof.
  intros z a b Q. unfold series. rewrite <- Csum_list_sub. f_equal. apply map_ext. intros q. unfold Cdiv. ring.
Qed.
Lemma series_unique : forall (f : R -> C) a b Q B B', (forall y, 1 <= y -> y ^ S Q * Cabs (Csub (f y) (series (0%R, y) a Q)) <= B)%R ->
  (forall y, 1 <= y -> y ^ S Q * Cabs (Csub (f y) (series (0%R, y) b Q)) <= B')%R -> forall q, (q < Q)%nat -> a q = b q.
Proof.
  intros f a b Q B B' Ha Hb q Hq. assert (Z0 : Csub (a q) (b q) = C0).
  { apply (series_zero Q (fun q => Csub (a q) (b q)) (B + B')); [|exact Hq]. intros y Hy. rewrite series_sub.
    replace (Csub (series (0%R, y) a Q) (series (0%R, y) b Q)) with (Csub (Csub (f y) (series (0%R, y) b Q)) (Csub (f y) (series (0%R, y) a Q))) by ring.
    eapply Rle_trans; [apply Rmult_le_compat_l; [apply pow_le; lra|apply Cabs_sub]|]. specialize (Ha y Hy). specialize (Hb y Hy). lra. }
  transitivity (Cadd (Csub (a q) (b q)) (b q)); [ring|]. rewrite Z0. ring.
Qed.

(** * The first moments of the Holstein model *)
Section Holstein.
Variable hop lat y fr : R.
Variable mps : option Z.
Variable M N : Z.
Variable k : R.
Hypothesis Hmps : forall q, mps = Some q -> 1 <= q.
Notation hterm_of d := (mkHterm "Holstein" (ivec [0]) (ivec [0]) d y 0 fr).
Definition hol : model R := mkModel lat 0%R (mkHam [hterm_of Plus; hterm_of Minus] [fr] 1 hop) mps [M] [N] None 1.
Notation pile := Firsov_proofs.pile.
Let kk := (k * lat)%R.
Let eps := (- (2 * hop * cos kk))%R.
Variable mu : nat -> placement -> Z -> C.
Hypothesis Mu : moments hol 0 k mu.
Notation nu q n := (mu q n 0%Z).

Lemma hol_Hof : forall F K n, Hof hol 0 k F K n =
  Csub (Csub (Csub (Cmul (RtoC (energy hol K n)) (F n))
    (Cmul (RtoC hop) (Cadd (Cmul (phase kk 1) (F (translated n (-1)))) (Cmul (phase kk (-1)) (F (translated n 1))))))
    (Cmul (RtoC y) (F (changed n 0 0 1)))) (Cmul (RtoC (y * IZR (n 0%nat 0%Z))) (F (changed n 0 0 (-1)))).
Proof.
  intros F K n. unfold Hof. change (moves hol) with [Hop true; Hop false; Act (hterm_of Plus); Act (hterm_of Minus)].
  assert (Sp : step 0 (Act (hterm_of Plus)) n = changed n 0 0 1) by exact (translated_0 hol _).
  assert (Sm : step 0 (Act (hterm_of Minus)) n = changed n 0 0 (-1)) by exact (translated_0 hol _).
  unfold Csum_list. cbn [map fold_right]. unfold term_at. rewrite Sp, Sm. change (m_lattice hol) with lat. change (h_hop (m_ham hol)) with hop. fold kk.
  change (ahead (Act (hterm_of Plus))) with 0. change (ahead (Act (hterm_of Minus))) with 0. rewrite phase_0.
  change (weight 0 hop (Hop true) n) with hop. change (weight 0 hop (Hop false) n) with hop.
  change (weight 0 hop (Act (hterm_of Plus)) n) with (y * 1)%R. change (weight 0 hop (Act (hterm_of Minus)) n) with (y * IZR (n 0%nat 0%Z))%R. rewrite Rmult_1_r.
  change (step 0 (Hop true) n) with (translated n (-1)). change (step 0 (Hop false) n) with (translated n 1). change (ahead (Hop true)) with 1. change (ahead (Hop false)) with (-1). ring.
Qed.
Lemma phases : Cadd (phase kk 1) (phase kk (-1)) = RtoC (2 * cos kk).
Proof.
  unfold phase, Cexpi, Cadd, RtoC, Re, Im. cbn [fst snd]. rewrite Rmult_1_r. replace (kk * -1)%R with (- kk)%R by ring. rewrite Ropp_involutive, cos_neg, sin_neg. f_equal; ring.
Qed.
Lemma hol_vacuum : full hol vacuum.
Proof. split; [intros; unfold vacuum; lia|]. split; [exists 0; intros t x H; unfold vacuum in H; lia|]. intros q E t x. specialize (Hmps q E). unfold vacuum. lia. Qed.
Lemma hol_one : forall s, full hol (translated (pile 1) s).
Proof.
  intros s. apply full_translated. split; [intros t x; unfold Firsov_proofs.pile; destruct (_ && _); lia|]. split; [exists 0; apply near_inside, Firsov_proofs.pile_inside; lia|].
  intros q E t x. specialize (Hmps q E). unfold Firsov_proofs.pile. destruct (_ && _); lia.
Qed.
Lemma one_inside : forall s, inside 1 (Z.abs s) (translated (pile 1) s).
Proof. intros s. apply (inside_translated hol (pile 1) s 0). apply Firsov_proofs.pile_inside. lia. Qed.
Lemma pile_vac : forall j s, (j <> 0)%nat -> translated (pile j) s <> vacuum.
Proof.
  intros j s H E. apply (f_equal (fun p : placement => p 0%nat s)) in E. unfold translated, vacuum in E. replace (s - s) with 0 in E by lia. rewrite Firsov_proofs.pile_at in E. lia.
Qed.
Lemma pile_vac0 : forall j, (j <> 0)%nat -> pile j <> vacuum.
Proof. intros j H. rewrite <- (translated_0 hol (pile j)). apply pile_vac, H. Qed.

(** One step from the phonon-free state, and from a phonon at the particle. *)
Lemma next_vac : forall q, nu (S q) vacuum = Csub (Cmul (RtoC eps) (nu q vacuum)) (Cmul (RtoC y) (nu q (pile 1))).
Proof.
  intros q. rewrite (nu_next hol 0 k mu Mu q vacuum 0 hol_vacuum (inside_vacuum 1 0)). rewrite hol_Hof, energy_vacuum, !vacuum_translated.
  replace (changed vacuum 0 0 1) with (pile 1) by (rewrite <- Firsov_proofs.pile_0; symmetry; apply Firsov_proofs.pile_changed; reflexivity).
  replace (Cadd (Cmul (phase kk 1) (nu q vacuum)) (Cmul (phase kk (-1)) (nu q vacuum))) with (Cmul (RtoC (2 * cos kk)) (nu q vacuum)) by (rewrite <- phases; ring).
  unfold vacuum at 3. unfold eps. apply Ceq; unfold Csub, Cmul, RtoC, Re, Im; cbn [fst snd]; ring.
Qed.
Lemma next_one : forall q, nu (S q) (pile 1) = Csub (Csub (Csub (Cmul (RtoC fr) (nu q (pile 1)))
  (Cmul (RtoC hop) (Cadd (Cmul (phase kk 1) (nu q (translated (pile 1) (-1)))) (Cmul (phase kk (-1)) (nu q (translated (pile 1) 1))))))
  (Cmul (RtoC y) (nu q (pile 2)))) (Cmul (RtoC y) (nu q vacuum)).
Proof.
  intros q. assert (D : full hol (pile 1)) by (rewrite <- (translated_0 hol (pile 1)); apply hol_one).
  rewrite (nu_next hol 0 k mu Mu q (pile 1) 0 D (Firsov_proofs.pile_inside 0 1 ltac:(lia))). rewrite hol_Hof.
  rewrite (Firsov_proofs.pile_changed 1 1 2), (Firsov_proofs.pile_changed 1 (-1) 0), Firsov_proofs.pile_0, Firsov_proofs.pile_at by reflexivity.
  rewrite energy_gsum. change (m_ntypes hol) with 1%nat. rewrite Firsov_proofs.pile_sum; [|intros; apply ph_0|lia]. unfold ph. cbn [hol m_ham h_freqs nth Z.of_nat Pos.of_succ_nat].
  rewrite !Rmult_1_r. reflexivity.
Qed.
Lemma start_out : forall j s, (j <> 0)%nat -> nu 0%nat (translated (pile j) s) = C0.
Proof. intros j s H. apply (nu_out hol 0 k mu Mu). apply pile_vac, H. Qed.
Lemma start_out0 : forall j, (j <> 0)%nat -> nu 0%nat (pile j) = C0.
Proof. intros j H. apply (nu_out hol 0 k mu Mu). apply pile_vac0, H. Qed.
Lemma first_two : nu 1%nat (pile 2) = C0.
Proof.
  destruct (classic (full hol (pile 2))) as [D|D]; [|apply (mo_support _ _ _ _ Mu), D].
  rewrite (nu_next hol 0 k mu Mu 0 (pile 2) 0 D (Firsov_proofs.pile_inside 0 2 ltac:(lia))). rewrite hol_Hof.
  rewrite (Firsov_proofs.pile_changed 2 1 3), (Firsov_proofs.pile_changed 2 (-1) 1), !start_out, !start_out0 by (reflexivity || lia). ring.
Qed.
Lemma first_far : forall s, s <> 0 -> nu 1%nat (translated (pile 1) s) = C0.
Proof.
  intros s Hs. rewrite (nu_next hol 0 k mu Mu 0 _ _ (hol_one s) (one_inside s)). rewrite hol_Hof.
  assert (Z0 : translated (pile 1) s 0%nat 0 = 0) by (unfold translated, Firsov_proofs.pile; cbn [Nat.eqb andb]; destruct (Z.eqb_spec (0 - s) 0); [lia|reflexivity]).
  rewrite !(translated_twice hol), !start_out, Z0 by lia.
  rewrite (nu_out hol 0 k mu Mu (changed (translated (pile 1) s) 0 0 1)).
  - apply Ceq; unfold Csub, Cadd, Cmul, RtoC, C0, Re, Im; cbn [fst snd]; ring.
  - intros E. apply (f_equal (fun p : placement => p 0%nat 0)) in E. unfold changed, vacuum in E. rewrite Z0 in E. cbn in E. lia.
Qed.

Theorem holstein_moments : nu 0%nat vacuum = C1 /\ nu 1%nat vacuum = RtoC eps /\ nu 2%nat vacuum = RtoC (eps ^ 2 + y ^ 2) /\
  nu 3%nat vacuum = RtoC (eps ^ 3 + 2 * eps * y ^ 2 + fr * y ^ 2).
Proof.
  assert (A0 : nu 0%nat vacuum = C1) by exact (nu_0 hol 0 k mu Mu). assert (B0 : nu 0%nat (pile 1) = C0) by (apply start_out0; lia).
  assert (A1 : nu 1%nat vacuum = RtoC eps) by (rewrite next_vac, A0, B0; apply Ceq; unfold Csub, Cmul, RtoC, C0, C1, Re, Im; cbn [fst snd]; ring).
  assert (B1 : nu 1%nat (pile 1) = RtoC (- y)).
  { rewrite next_one, A0, B0, !start_out, start_out0 by lia. apply Ceq; unfold Csub, Cadd, Cmul, RtoC, C0, C1, Re, Im; cbn [fst snd]; ring. }
  assert (A2 : nu 2%nat vacuum = RtoC (eps ^ 2 + y ^ 2)) by (rewrite next_vac, A1, B1; apply Ceq; unfold Csub, Cmul, RtoC, Re, Im; cbn [fst snd]; ring).
  assert (B2 : nu 2%nat (pile 1) = RtoC (- (fr * y) - y * eps)).
  { rewrite next_one, A1, B1, first_two, !first_far by lia. apply Ceq; unfold Csub, Cadd, Cmul, RtoC, C0, Re, Im; cbn [fst snd]; ring. }
  split; [exact A0|]. split; [exact A1|]. split; [exact A2|]. rewrite next_vac, A2, B2. apply Ceq; unfold Csub, Cmul, RtoC, Re, Im; cbn [fst snd]; ring.
Qed.

(** The fourth, where one site can hold two phonons. *)
Hypothesis Htwo : forall q, mps = Some q -> 2 <= q.
Lemma full_many : forall n, (forall t x, 0 <= n t x <= 2) -> (exists K, inside 1 K n) -> full hol n.
Proof.
  intros n H [K Hi]. split; [intros t x; apply H|]. split; [exists K; apply near_inside, Hi|]. intros q E t x. specialize (Htwo q E). specialize (H t x). lia.
Qed.
Lemma second_two : nu 2%nat (pile 2) = RtoC (2 * y ^ 2).
Proof.
  assert (D : full hol (pile 2)) by (apply full_many; [intros t x; unfold Firsov_proofs.pile; destruct (_ && _); lia|exists 0; apply Firsov_proofs.pile_inside; lia]).
  assert (F3 : nu 1%nat (pile 3) = C0).
  { destruct (classic (full hol (pile 3))) as [D3|D3]; [|apply (mo_support _ _ _ _ Mu), D3].
    rewrite (nu_next hol 0 k mu Mu 0 (pile 3) 0 D3 (Firsov_proofs.pile_inside 0 3 ltac:(lia))). rewrite hol_Hof.
    rewrite (Firsov_proofs.pile_changed 3 1 4), (Firsov_proofs.pile_changed 3 (-1) 2), !start_out, !start_out0 by (reflexivity || lia). ring. }
  assert (Fs : forall s, s <> 0 -> nu 1%nat (translated (pile 2) s) = C0).
  { intros s Hs. assert (Ds : full hol (translated (pile 2) s)) by (apply full_translated, D).
    rewrite (nu_next hol 0 k mu Mu 0 _ _ Ds (inside_translated hol (pile 2) s 0 (Firsov_proofs.pile_inside 0 2 ltac:(lia)))). rewrite hol_Hof.
    assert (Z0 : translated (pile 2) s 0%nat 0 = 0) by (unfold translated, Firsov_proofs.pile; cbn [Nat.eqb andb]; destruct (Z.eqb_spec (0 - s) 0); [lia|reflexivity]).
    rewrite !(translated_twice hol), !start_out, Z0 by lia. rewrite (nu_out hol 0 k mu Mu (changed (translated (pile 2) s) 0 0 1)).
    - apply Ceq; unfold Csub, Cadd, Cmul, RtoC, C0, Re, Im; cbn [fst snd]; ring.
    - intros E. apply (f_equal (fun p : placement => p 0%nat 0)) in E. unfold changed, vacuum in E. rewrite Z0 in E. cbn in E. lia. }
  assert (B1 : nu 1%nat (pile 1) = RtoC (- y)).
  { rewrite next_one, (nu_0 hol 0 k mu Mu), !start_out, !start_out0 by lia. apply Ceq; unfold Csub, Cadd, Cmul, RtoC, C0, C1, Re, Im; cbn [fst snd]; ring. }
  rewrite (nu_next hol 0 k mu Mu 1 (pile 2) 0 D (Firsov_proofs.pile_inside 0 2 ltac:(lia))). rewrite hol_Hof.
  rewrite (Firsov_proofs.pile_changed 2 1 3), (Firsov_proofs.pile_changed 2 (-1) 1), F3, first_two, !Fs, B1, Firsov_proofs.pile_at by (reflexivity || lia).
  apply Ceq; unfold Csub, Cadd, Cmul, RtoC, C0, Re, Im; cbn [fst snd Z.of_nat Pos.of_succ_nat Pos.succ]; ring.
Qed.
Lemma second_far : forall s, s = 1 \/ s = -1 -> nu 2%nat (translated (pile 1) s) = Cmul (RtoC (hop * y)) (phase kk s).
Proof.
  intros s Hs. rewrite (nu_next hol 0 k mu Mu 1 _ _ (hol_one s) (one_inside s)). rewrite hol_Hof.
  assert (Z0 : translated (pile 1) s 0%nat 0 = 0) by (unfold translated, Firsov_proofs.pile; cbn [Nat.eqb andb]; destruct (Z.eqb_spec (0 - s) 0); [lia|reflexivity]).
  assert (B1 : nu 1%nat (pile 1) = RtoC (- y)).
  { rewrite next_one, (nu_0 hol 0 k mu Mu), !start_out, !start_out0 by lia. apply Ceq; unfold Csub, Cadd, Cmul, RtoC, C0, C1, Re, Im; cbn [fst snd]; ring. }
  assert (Two : nu 1%nat (changed (translated (pile 1) s) 0 0 1) = C0).
  { set (n := changed (translated (pile 1) s) 0 0 1).
    assert (N0 : n 0%nat 0 = 1) by (unfold n, changed; rewrite Z0; reflexivity).
    assert (N1 : n 0%nat s = 1) by (unfold n, changed, translated; replace (s - s) with 0 by lia; rewrite Firsov_proofs.pile_at; destruct (Z.eqb_spec s 0); [lia|cbn; lia]).
    assert (Dn : full hol n).
    { apply full_many.
      - intros t x. unfold n, changed, translated, Firsov_proofs.pile. destruct (_ && _); destruct (_ && _); lia.
      - exists (Z.max (Z.abs s) (Z.abs 0)). intros t x Hx. unfold n, changed in Hx. destruct (Nat.eqb t 0 && (x =? 0)) eqn:B; [apply andb_true_iff in B; destruct B as [B1' B2']; apply Nat.eqb_eq in B1'; apply Z.eqb_eq in B2'; lia|]. rewrite Z.add_0_r in Hx. apply (one_inside s) in Hx. lia. }
    destruct (proj1 (proj2 Dn)) as [K0 HK0]. apply near_inside in HK0. rewrite (nu_next hol 0 k mu Mu 0 n _ Dn HK0). rewrite hol_Hof.
    assert (O : forall p : placement, (exists x, p 0%nat x <> 0) -> nu 0%nat p = C0) by (intros p [x Hx]; apply (nu_out hol 0 k mu Mu); intros E; apply Hx; rewrite E; reflexivity).
    rewrite !O; [ring| | | | |].
    - exists s. unfold changed. destruct (Z.eqb_spec s 0); [lia|]. rewrite andb_false_r. lia.
    - exists s. unfold changed. destruct (Z.eqb_spec s 0); [lia|]. rewrite andb_false_r. lia.
    - exists (s + 1). unfold translated. replace (s + 1 - 1) with s by lia. lia.
    - exists (s + -1). unfold translated. replace (s + -1 - -1) with s by lia. lia.
    - exists s. lia. }
  rewrite Two, !(translated_twice hol), Z0. destruct Hs as [-> | ->].
  - rewrite !(first_far 1), (first_far (1 + 1)) by lia. replace (translated (pile 1) (1 + -1)) with (pile 1) by (symmetry; exact (translated_0 hol _)). rewrite B1.
    generalize (phase kk (-1)). intros u. generalize (phase kk 1). intros v. apply Ceq; unfold Csub, Cadd, Cmul, RtoC, C0, Re, Im; cbn [fst snd]; ring.
  - rewrite !(first_far (-1)), (first_far (-1 + -1)) by lia. replace (translated (pile 1) (-1 + 1)) with (pile 1) by (symmetry; exact (translated_0 hol _)). rewrite B1.
    generalize (phase kk (-1)). intros u. generalize (phase kk 1). intros v. apply Ceq; unfold Csub, Cadd, Cmul, RtoC, C0, Re, Im; cbn [fst snd]; ring.
Qed.
Theorem holstein_fourth : nu 4%nat vacuum = RtoC (eps ^ 4 + 3 * eps ^ 2 * y ^ 2 + 2 * fr * eps * y ^ 2 + fr ^ 2 * y ^ 2 + 2 * hop ^ 2 * y ^ 2 + 3 * y ^ 4).
Proof.
  destruct holstein_moments as [A0 [A1 [A2 A3]]].
  assert (B2 : nu 2%nat (pile 1) = RtoC (- (fr * y) - y * eps)).
  { assert (B1 : nu 1%nat (pile 1) = RtoC (- y)).
    { rewrite next_one, A0, !start_out, !start_out0 by lia. apply Ceq; unfold Csub, Cadd, Cmul, RtoC, C0, C1, Re, Im; cbn [fst snd]; ring. }
    rewrite next_one, A1, B1, first_two, !first_far by lia. apply Ceq; unfold Csub, Cadd, Cmul, RtoC, C0, Re, Im; cbn [fst snd]; ring. }
  assert (U : Cmul (phase kk 1) (phase kk (-1)) = C1).
  { rewrite <- phase_add. apply phase_0. }
  rewrite next_vac, A3, next_one, second_two, A2, B2, (second_far 1), (second_far (-1)) by lia.
  replace (Cadd (Cmul (phase kk 1) (Cmul (RtoC (hop * y)) (phase kk (-1)))) (Cmul (phase kk (-1)) (Cmul (RtoC (hop * y)) (phase kk 1)))) with
    (Cmul (RtoC (2 * hop * y)) (Cmul (phase kk 1) (phase kk (-1)))).
  - rewrite U. apply Ceq; unfold Csub, Cadd, Cmul, RtoC, C0, C1, Re, Im; cbn [fst snd]; ring.
  - generalize (phase kk (-1)). intros u. generalize (phase kk 1). intros v. apply Ceq; unfold Csub, Cadd, Cmul, RtoC, Re, Im; cbn [fst snd]; ring.
Qed.
End Holstein.
