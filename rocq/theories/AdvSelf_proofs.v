(** The solver at negative broadening, clouds of one site (C81). *)
From Coq Require Import String ZArith Reals List Bool Lia Lra Permutation Ring.
From Verif Require Import Base NdArray Spec Model HModel Space Spec_space Term Equation System Spec_engine Ring Coef Spec_eom Solvers Spec_solve
  Sysok_proofs Prime_proofs Sparse_proofs Rows_proofs Cplx Physics Physics_proofs Toeplitz_proofs Weight_proofs Spec_spectral Energy_proofs Spectral_proofs Spec_ma Ladder_proofs
  Adv_proofs MA_proofs.
Import ListNotations.
Open Scope list_scope.
Open Scope Z_scope.

(** The continued fraction is odd. *)
Lemma ladder_cj : forall (g2 sg : R) (p q : Z -> C), (sg * sg = 1)%R -> (forall n, q n = Cmul (RtoC sg) (Cconj (p n))) -> forall r n,
  @ladder CF (RtoC g2) q n r = Cmul (RtoC sg) (Cconj (@ladder CF (RtoC g2) p n r)) /\ (@ladder_ok CF (RtoC g2) p n r -> @ladder_ok CF (RtoC g2) q n r).
Proof.
  intros g2 sg p q Sg Hq. assert (S2 : Cmul (RtoC sg) (RtoC sg) = C1) by (rewrite <- RtoC_mul, Sg; reflexivity).
  induction r as [|r IH]; intros n.
  - split; [|trivial]. cbn [ladder]. change (@eq C C0 (Cmul (RtoC sg) (Cconj C0))). conj_eq.
  - destruct (IH (n + 1)) as [E O]. cbn [ladder ladder_ok]. rewrite E. set (L := @ladder CF (RtoC g2) p (n + 1) r) in *.
    assert (D : forall L : C, Csub C1 (Cmul (q n) (Cmul (RtoC sg) (Cconj L))) = Cconj (Csub C1 (Cmul (p n) L))).
    { intros L'. rewrite Hq, cj_sub, cj_1, cj_mul.
      transitivity (Csub C1 (Cmul (Cmul (RtoC sg) (RtoC sg)) (Cmul (Cconj (p n)) (Cconj L')))); [ring|]. rewrite S2. ring. }
    change (@ksub CF) with Csub. change (@kmul CF) with Cmul. change (@k1 CF) with C1. change (@kinv CF) with Cinv. change (@k0 CF) with C0.
    replace (@kz CF n) with (RtoC (IZR n)) by (symmetry; exact (kz_R n)). rewrite (D L). set (W := Csub C1 (Cmul (p n) L)). split.
    + rewrite !cj_mul, !cj_R, cj_inv, Hq. change (car CF) with C. ring.
    + intros [O1 O2]. split; [exact (O O1)|]. exact (cj_nz _ O2).
Qed.

Section Neg.
Variables (m : model R) (ae : Z) (c Om : R) (N : Z) (ord : string -> list vec -> list vec) (s : system R) (k w eta sg : R).
Hypothesis G : good_model m ae.
Hypothesis H : holstein m c Om 1 N.
Hypothesis Heta : (0 < eta)%R.
Hypothesis P : forall k l, Permutation (ord k l) l.
Hypothesis Es : prime_system ord m = Ok s.
Let e := phys_env m k w (- eta).
Let t := h_hop (m_ham m).
Variable p : Z -> C.
Hypothesis Hp : forall n, local_greens t ((w - IZR n * Om)%R, eta) (p n).
Hypothesis Sg : (t = 0 /\ sg = 1 \/ t <> 0 /\ sg = -1)%R.
Let L : C := @ladder CF (RtoC (c * c)) p 1 (Z.to_nat (most m N)).
Let zk : C := ((w + 2 * t * cos (k * m_lattice m))%R, eta).
Let q (n : Z) : C := Cmul (RtoC sg) (Cconj (p n)).

Lemma sg_sq : (sg * sg = 1)%R. Proof. destruct Sg as [[_ ->]|[_ ->]]; ring. Qed.

Lemma q_code : forall n, g0 e [0] [(Om, n)] = q n.
Proof.
  intros n. unfold q. rewrite <- (p_code m Om k w eta Heta p Hp n). unfold e. cbn [phys_env g0]. unfold half_of, shift_of. cbn [hd fold_right fst snd].
  replace (0 / 2)%R with 0%R by field. set (x := (w - _)%R). fold t. destruct Sg as [[T0 ->]|[T0 ->]].
  - rewrite T0. unfold g0_delta_omega. destruct (Req_EM_T 0 0) as [_|B]; [|contradiction]. rewrite cj_div, cj_1, cj_add, cj_mul, !cj_R, cj_i.
    transitivity (Cdiv C1 (Cadd (RtoC x) (Cmul (RtoC (- eta)) Ci))); [reflexivity|].
    assert (E : Cadd (RtoC x) (Cmul (RtoC (- eta)) Ci) = Cadd (RtoC x) (Cmul (RtoC eta) (Copp Ci))) by conj_eq. rewrite E. set (y := Cdiv _ _). change (RtoC 1) with C1. change (@eq C y (Cmul C1 y)). ring.
  - assert (V : (0 < Im (RtoC x) + eta)%R) by (unfold RtoC, Im; cbn; lra).
    pose proof (other_zero (RtoC x) eta t V T0 (m_lattice m)) as E. rewrite cj_R in E. rewrite E. set (y := Cconj _). change (@eq C (Copp y) (Cmul (RtoC (-1)) y)). conj_eq.
Qed.

Lemma neg_G0 : Cmul (G0 e) (Cconj zk) = C1.
Proof.
  assert (E : G0 e = Cconj (G0 (phys_env m k w eta))).
  { unfold e. cbn [phys_env G0]. unfold G0_k_omega. rewrite cj_div, cj_1. f_equal. conj_eq. }
  rewrite E, <- cj_mul. unfold zk, t. rewrite (phys_G0 m k w eta Heta). apply cj_1.
Qed.

Lemma neg_fraction : @ladder_ok CF (Cmul (ev e c) (ev e c)) (fun n => g0 e [0] [(Om, n)]) 1 (Z.to_nat (most m N)) /\
  @ladder CF (Cmul (ev e c) (ev e c)) (fun n => g0 e [0] [(Om, n)]) 1 (Z.to_nat (most m N)) = Cmul (RtoC sg) (Cconj L).
Proof.
  unfold e. rewrite gg. destruct (ladder_neg (c * c) p (Rle_0_sqr c) (fun n => proj2 (Hp n)) (Z.to_nat (most m N)) 1 ltac:(lia)) as [OK _].
  destruct (ladder_cj (c * c) sg p q sg_sq (fun n => eq_refl) (Z.to_nat (most m N)) 1) as [E O]. split.
  - exact (ladder_ok_ext CF _ _ q _ 1 q_code (O OK)).
  - transitivity (@ladder CF (RtoC (c * c)) q 1 (Z.to_nat (most m N))); [exact (ladder_ext CF _ _ q _ 1 q_code)|exact E].
Qed.

Hypothesis NZ : Csub zk (Cmul (RtoC sg) L) <> C0.

Lemma neg_den : Csub C1 (Cmul (G0 e) (Cmul (RtoC sg) (Cconj L))) <> C0.
Proof.
  intros E. apply (cj_nz _ NZ). rewrite cj_sub, cj_mul, cj_R. pose proof neg_G0 as EG.
  assert (X : Cmul (G0 e) (Csub (Cconj zk) (Cmul (RtoC sg) (Cconj L))) = C0) by (transitivity (Csub (Cmul (G0 e) (Cconj zk)) (Cmul (G0 e) (Cmul (RtoC sg) (Cconj L)))); [ring|rewrite EG; exact E]).
  apply C_integral in X; [exact X|]. intros Z0. rewrite Z0 in EG. apply (f_equal Re) in EG. unfold Cmul, C0, C1, Re, Im in EG. cbn in EG. lra.
Qed.

Lemma neg_regular : nonsingular (mkCoo (NN s) (NN s) (triplets e s)).
Proof.
  apply (regular_iff m ae G ord P s Es e). destruct (ho_terms _ _ _ _ _ H) as [h [h' [Et [D [D' Hx]]]]]. destruct neg_fraction as [OK EL].
  refine (@one_regular R CF m ae c Om 1 N G H e (or_introl eq_refl) h h' (conj Et (conj D D')) Hx eq_refl (phase0 m k w (- eta)) OK _).
  change (Csub C1 (Cmul (G0 e) (@ladder CF (Cmul (ev e c) (ev e c)) (fun n => g0 e [0] [(Om, n)]) 1 (Z.to_nat (most m N)))) <> C0). rewrite EL. exact neg_den.
Qed.

Lemma neg_value : forall u, proper u -> solution e s u -> Cmul (Csub (Cconj zk) (Cmul (RtoC sg) (Cconj L))) (u (vac m, [0])) = C1.
Proof.
  intros u Pu Su. apply (solution_iff m ae G ord P s Es e u Pu) in Su. destruct (ho_terms _ _ _ _ _ H) as [h [h' [Et [D [D' Hx]]]]]. destruct neg_fraction as [OK EL].
  pose proof (@y_closed R CF m ae c Om 1 N G H e (or_introl eq_refl) h h' (conj Et (conj D D')) Hx u (G0 e) Pu (phase0 m k w (- eta)) Su OK) as E.
  change (Cmul (Csub C1 (Cmul (G0 e) (@ladder CF (Cmul (ev e c) (ev e c)) (fun n => g0 e [0] [(Om, n)]) 1 (Z.to_nat (most m N))))) (u (vac m, [0])) = G0 e) in E. rewrite EL in E.
  pose proof neg_G0 as EZ. change (car CR) with C in *. set (S := Cmul (RtoC sg) (Cconj L)) in *.
  assert (X : Cmul (G0 e) (Csub (Cmul (Csub (Cconj zk) S) (u (vac m, [0]))) C1) = C0).
  { transitivity (Csub (Cmul (Csub (Cmul (G0 e) (Cconj zk)) (Cmul (G0 e) S)) (u (vac m, [0]))) (G0 e)); [ring|]. rewrite EZ, E. ring. }
  apply C_integral in X; [transitivity (Cadd (Csub (Cmul (Csub (Cconj zk) S) (u (vac m, [0]))) C1) C1); [ring|rewrite X; ring]|].
  intros Z0. rewrite Z0 in EZ. apply (f_equal Re) in EZ. unfold Cmul, C0, C1, Re, Im in EZ. cbn in EZ. lra.
Qed.
End Neg.
