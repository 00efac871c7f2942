(** The continued fraction of the Holstein polaron at complex energies (C54). *)
From Coq Require Import String ZArith Reals List Bool Lia Lra Permutation Ring.
From Verif Require Import Base NdArray Spec Model HModel Space Spec_space Term Equation System Spec_engine Ring Coef Spec_eom Solvers Spec_solve
  Sysok_proofs Prime_proofs Sparse_proofs Rows_proofs Cplx Physics Physics_proofs Toeplitz_proofs Weight_proofs Spec_spectral Energy_proofs Spectral_proofs Spec_ma Ladder_proofs.
Import ListNotations.
Open Scope list_scope.
Open Scope Z_scope.

Lemma RtoC_R : forall (x : R) z, Cmul (RtoC x) z = ((x * Re z)%R, (x * Im z)%R).
Proof. intros. apply Ceq; unfold Cmul, RtoC, Re, Im; cbn; ring. Qed.

(** One level of the fraction. *)
Lemma level : forall (p L : C), (Im p < 0)%R -> (Im L <= 0)%R ->
  Csub C1 (Cmul p L) <> C0 /\ (Im (Cmul p (Cinv (Csub C1 (Cmul p L)))) < 0)%R.
Proof.
  intros p L Hp HL. set (D := Csub C1 (Cmul p L)).
  assert (P0 : p <> C0) by (intros E; rewrite E in Hp; cbn in Hp; lra). pose proof (Cnorm2_pos p P0) as NP.
  assert (E : (Im (Cmul (Cconj p) D) = - Im p - Cnorm2 p * Im L)%R) by (unfold D, Csub, Cmul, Cconj, C1, Cnorm2, Re, Im; cbn; ring).
  assert (DN : D <> C0).
  { intros E0. rewrite E0 in E. assert (Z0 : Im (Cmul (Cconj p) C0) = 0%R) by (unfold Cmul, C0, Re, Im; cbn; ring). rewrite Z0 in E. nra. }
  split; [exact DN|]. pose proof (Cnorm2_pos D DN) as ND.
  assert (X : (Im (Cmul p (Cinv D)) = - (Im (Cmul (Cconj p) D) / Cnorm2 D))%R).
  { unfold Cinv, Cmul, Cconj, Cnorm2, Re, Im in *. cbn in *. field. lra. }
  rewrite X. assert (0 < Im (Cmul (Cconj p) D))%R by (rewrite E; nra).
  assert (0 < Im (Cmul (Cconj p) D) / Cnorm2 D)%R by (apply Rdiv_lt_0_compat; assumption). lra.
Qed.

Lemma ladder_neg : forall (g2 : R) (p : Z -> C), (0 <= g2)%R -> (forall n, Im (p n) < 0)%R -> forall r n, 0 <= n ->
  @ladder_ok CF (RtoC g2) p n r /\ (Im (@ladder CF (RtoC g2) p n r : C) <= 0)%R.
Proof.
  intros g2 p Hg Hp. induction r as [|r IH]; intros n Hn; [split; [exact I|cbn; lra]|].
  destruct (IH (n + 1) ltac:(lia)) as [OK HL]. cbn [ladder ladder_ok]. set (L := @ladder CF (RtoC g2) p (n + 1) r) in *.
  destruct (level (p n) L (Hp n) HL) as [DN NG]. split; [split; [exact OK|exact DN]|].
  assert (E : kmul (kmul (kmul (kz n) (RtoC g2 : CF)) (p n : CF)) (kinv (ksub k1 (kmul (p n : CF) L))) =
     Cmul (RtoC (IZR n * g2)) (Cmul (p n) (Cinv (Csub C1 (Cmul (p n) L))))).
  { replace (@kz CF n) with (RtoC (IZR n)) by (symmetry; exact (kz_R n)). rewrite RtoC_mul. change (@kmul CF) with Cmul. change (@kinv CF) with Cinv. change (@ksub CF) with Csub. change (@k1 CF) with C1. change (car CF) with C in *. ring. }
  rewrite E, RtoC_R. cbn [Im snd]. set (q := Im _) in *. apply (IZR_le 0) in Hn. assert (0 <= IZR n * g2)%R by nra. nra.
Qed.

(** The code's propagator on a site. *)
Lemma local_unique : forall t z p q, local_greens t z p -> local_greens t z q -> p = q.
Proof.
  intros t z p q [E1 N1] [E2 N2]. set (D := Csub (Cmul z z) (RtoC (4 * t * t))) in *.
  assert (DN : D <> C0). { intros E. rewrite E in E1. apply (f_equal Re) in E1. unfold Cmul, C0, C1, Re, Im in E1. cbn in E1. lra. }
  assert (X : Cmul D (Cmul (Csub p q) (Cadd p q)) = C0) by (transitivity (Csub (Cmul (Cmul p p) D) (Cmul (Cmul q q) D)); [ring|rewrite E1, E2; ring]).
  apply (C_integral _ _ DN) in X. assert (SN : Cadd p q <> C0). { intros E. apply (f_equal Im) in E. unfold Cadd, C0, Re, Im in *. cbn in E. lra. }
  assert (Y : Csub p q = C0) by (apply (C_integral (Cadd p q)); [exact SN|rewrite <- X; ring]). transitivity (Cadd (Csub p q) q); [ring|]. rewrite Y. ring.
Qed.

Lemma g0_local : forall (w eta t a : R), (0 < eta)%R -> local_greens t (w, eta) (g0_delta_omega 0 (RtoC w) a eta t 1 0).
Proof.
  intros w eta t a He. assert (V : (0 < Im (RtoC w) + eta)%R) by (unfold RtoC, Im; cbn; lra).
  assert (EZ : Cadd (RtoC w) (Cmul (RtoC eta) Ci) = (w, eta)) by (apply Ceq; unfold Cadd, Cmul, RtoC, Ci, Re, Im; cbn; ring).
  assert (ZN : (w, eta) <> C0) by (intros E; apply (f_equal Im) in E; unfold C0, Im in E; cbn in E; lra).
  destruct (Req_EM_T t 0) as [->|T0].
  - unfold g0_delta_omega. destruct (Req_EM_T 0 0) as [_|N]; [|contradiction]. rewrite EZ. split.
    + replace (RtoC (4 * 0 * 0)) with C0 by (apply Ceq; unfold RtoC, C0, Re, Im; cbn; ring). field. exact ZN.
    + pose proof (Cnorm2_pos _ ZN) as NP. replace (Im (Cdiv C1 (w, eta))) with (- (eta / Cnorm2 (w, eta)))%R.
      * assert (0 < eta / Cnorm2 (w, eta))%R by (apply Rdiv_lt_0_compat; assumption). lra.
      * unfold Cdiv, Cinv, Cmul, C1, Cnorm2, Re, Im in *. cbn in *. field. lra.
  - rewrite (g0_form (RtoC w) eta t T0). rewrite Rmult_0_l, Rabs_R0. rewrite EZ. set (x := Cdiv (w, eta) (RtoC (2 * Rabs t))).
    assert (XP : (0 < Im x)%R) by (pose proof (xpos (RtoC w) eta t V T0) as X; rewrite EZ in X; exact X).
    pose proof (s_pos x XP) as SP. pose proof (s_sq x) as SS. set (s := Csqrt (Csub C1 (Cmul x x))) in *.
    pose proof (Bpos t T0) as BP. set (B := (2 * Rabs t)%R) in *.
    assert (SN : s <> C0) by (intros E; rewrite E in SP; cbn in SP; lra). assert (BN : RtoC B <> C0) by (apply RtoC_0; lra).
    replace (Cpow (base x) 0) with C1 by (symmetry; exact (Cpow_nat (base x) 0 (base_nz x))).
    split.
    + assert (BB : RtoC (4 * t * t) = Cmul (RtoC B) (RtoC B)).
      { rewrite <- RtoC_mul. f_equal. unfold B. pose proof (Rsqr_abs t) as Q. unfold Rsqr in Q. lra. }
      rewrite BB. assert (EX : @eq C (w, eta) (Cmul (RtoC B) x)) by (unfold x; set (zz := (w, eta) : C); field; exact BN). rewrite EX.
      assert (II : Cmul Ci Ci = Copp C1) by (apply Ceq; unfold Cmul, Ci, Copp, C1, Re, Im; cbn; ring).
      assert (SX : Cmul x x = Csub C1 (Cmul s s)) by (rewrite SS; ring).
      replace (Cmul (Cmul (RtoC B) x) (Cmul (RtoC B) x)) with (Cmul (Cmul (RtoC B) (RtoC B)) (Cmul x x)) by ring. rewrite SX.
      transitivity (Copp (Cmul Ci Ci)); [field; split; assumption|rewrite II; ring].
    + pose proof (Cnorm2_pos _ SN) as NP. replace (Im (Cmul C1 (Cdiv (Copp Ci) (Cmul (RtoC B) s)))) with (- (Re s / (B * Cnorm2 s)))%R.
      * assert (0 < Re s / (B * Cnorm2 s))%R by (apply Rdiv_lt_0_compat; [assumption|apply Rmult_lt_0_compat; assumption]). lra.
      * assert (X : Cdiv (Copp Ci) (Cmul (RtoC B) s) = Cmul (RtoC (- (1 / (B * Cnorm2 s)))) (Cmul Ci (Cconj s))).
        { replace (Cdiv (Copp Ci) (Cmul (RtoC B) s)) with (Cmul (Cmul (RtoC (- (1 / B))) Ci) (Cinv s)).
          - replace (Cinv s) with (Cmul (RtoC (1 / Cnorm2 s)) (Cconj s)) by (apply Ceq; unfold Cinv, Cmul, RtoC, Cconj, Re, Im; cbn; field; lra).
            replace (- (1 / (B * Cnorm2 s)))%R with (- (1 / B) * (1 / Cnorm2 s))%R by (field; lra). rewrite RtoC_mul. ring.
          - replace (RtoC (- (1 / B))) with (Copp (Cinv (RtoC B))); [field; split; assumption|].
            apply Ceq; unfold Copp, Cinv, RtoC, Cnorm2, Re, Im; cbn; field; lra. }
        rewrite X. unfold Cmul, C1, RtoC, Ci, Cconj, Re, Im. cbn. fold (Re s). field. unfold Cnorm2, Re, Im in *. split; lra.
Qed.

Lemma ladder_ext : forall (F : cfield) (g2 : F) (p q : Z -> F) r n, (forall n, p n = q n) -> ladder g2 p n r = ladder g2 q n r.
Proof. intros F g2 p q r. induction r as [|r IH]; intros n E; [reflexivity|]. cbn [ladder]. rewrite (IH (n + 1) E), (E n). reflexivity. Qed.
Lemma ladder_ok_ext : forall (F : cfield) (g2 : F) (p q : Z -> F) r n, (forall n, p n = q n) -> ladder_ok g2 q n r -> ladder_ok g2 p n r.
Proof.
  intros F g2 p q r. induction r as [|r IH]; intros n E; [trivial|]. intros [H1 H2]. split; [apply IH; assumption|]. rewrite (ladder_ext F g2 p q r (n + 1) E), (E n). exact H2.
Qed.

Section MA.
Variables (m : model R) (ae : Z) (c Om : R) (M N : Z) (ord : string -> list vec -> list vec) (s : system R) (k w eta : R).
Hypothesis G : good_model m ae.
Hypothesis H : holstein m c Om M N.
Hypothesis S1 : M = 1 \/ h_hop (m_ham m) = 0%R.
Hypothesis Heta : (0 < eta)%R.
Hypothesis P : forall k l, Permutation (ord k l) l.
Hypothesis Es : prime_system ord m = Ok s.
Let e := phys_env m k w eta.
Let t := h_hop (m_ham m).
Variable p : Z -> C.
Hypothesis Hp : forall n, local_greens t ((w - IZR n * Om)%R, eta) (p n).
Let L : C := @ladder CF (RtoC (c * c)) p 1 (Z.to_nat (most m N)).
Let zk : C := ((w + 2 * t * cos (k * m_lattice m))%R, eta).

Lemma p_code : forall n, g0 e [0] [(Om, n)] = p n.
Proof.
  intros n. apply (local_unique t ((w - IZR n * Om)%R, eta)); [|apply Hp]. unfold e. cbn [phys_env g0]. unfold half_of, shift_of. cbn [hd fold_right fst snd].
  replace (0 / 2)%R with 0%R by field. replace (w - (Om * IZR n + 0))%R with (w - IZR n * Om)%R by ring. apply g0_local. exact Heta.
Qed.

Lemma holstein_hermitian : hermitian e m /\ on_lattice m 0.
Proof.
  destruct (ho_terms _ _ _ _ _ H) as [h [h' [Et [D [D' Hx]]]]]. destruct (Hx h (or_introl eq_refl)) as [A1 [A2 [A3 A4]]]. destruct (Hx h' (or_intror eq_refl)) as [B1 [B2 [B3 B4]]]. split.
  - exists [h'; h]. rewrite Et. split; [constructor|]. unfold adjoint_op, psi1, phi1.
    repeat constructor; rewrite ?A1, ?A2, ?A3, ?A4, ?B1, ?B2, ?B3, ?B4, ?D, ?D'; reflexivity.
  - intros h0 Hh. rewrite Et in Hh. unfold psi1, phi1. destruct Hh as [<-|[<-|[]]]; rewrite ?A1, ?A2, ?B1, ?B2; split; exists 0; reflexivity.
Qed.

Lemma phase0 : ph e [0] = C1.
Proof. unfold e. cbn [phys_env ph]. unfold half_of. cbn [hd]. unfold Cexpi. replace (k * (m_lattice m * (0 / 2)))%R with 0%R by field. rewrite cos_0, sin_0. reflexivity. Qed.

Lemma single_site : M = 1 \/ forall x l, x <> 0 -> g0 e [2 * x] l = C0.
Proof.
  destruct S1 as [M1|T0]; [left; exact M1|right]. intros x l X. unfold e. cbn [phys_env g0]. unfold g0_delta_omega. destruct (Req_EM_T (h_hop (m_ham m)) 0) as [_|Q]; [|contradiction].
  destruct (Req_EM_T (half_of [2 * x]) 0) as [E|_]; [|reflexivity]. exfalso. unfold half_of in E. cbn [hd] in E. rewrite mult_IZR in E. apply X, eq_IZR. lra.
Qed.

Lemma gg : Cmul (ev e c) (ev e c) = RtoC (c * c).
Proof. unfold e. cbn [phys_env ev]. symmetry. apply RtoC_mul. Qed.

Lemma fraction : @ladder_ok CF (Cmul (ev e c) (ev e c)) (fun n => g0 e [0] [(Om, n)]) 1 (Z.to_nat (most m N)) /\
  @ladder CF (Cmul (ev e c) (ev e c)) (fun n => g0 e [0] [(Om, n)]) 1 (Z.to_nat (most m N)) = L /\ (Im L <= 0)%R.
Proof.
  rewrite gg. destruct (ladder_neg (c * c) p (Rle_0_sqr c) (fun n => proj2 (Hp n)) (Z.to_nat (most m N)) 1 ltac:(lia)) as [OK NG].
  split; [|split; [|exact NG]].
  - exact (ladder_ok_ext CF _ _ p _ 1 p_code OK).
  - exact (ladder_ext CF _ _ p _ 1 p_code).
Qed.

Lemma G0_z : Cmul (G0 e) zk = C1. Proof. exact (phys_G0 m k w eta Heta). Qed.
Lemma G0_neg : (Im (G0 e) < 0)%R.
Proof.
  pose proof G0_z as E. assert (X : Cmul (Cnorm2 (G0 e), 0%R) zk = Cconj (G0 e)).
  { transitivity (Cmul (Cconj (G0 e)) (Cmul (G0 e) zk)); [apply Ceq; unfold Cmul, Cconj, Cnorm2, Re, Im; cbn; ring|]. rewrite E. apply Ceq; unfold Cmul, C1, Re, Im; cbn; ring. }
  apply (f_equal Im) in X. assert (GN : G0 e <> C0) by (intros Z0; rewrite Z0 in E; apply (f_equal Re) in E; unfold Cmul, C0, C1, Re, Im in E; cbn in E; lra).
  pose proof (Cnorm2_pos _ GN) as NP. assert (0 < Cnorm2 (G0 e) * eta)%R by (apply Rmult_lt_0_compat; assumption).
  assert (Y : (Cnorm2 (G0 e) * eta = - Im (G0 e))%R); [|lra]. transitivity (Im (Cmul (Cnorm2 (G0 e), 0%R) zk)); [unfold zk, Cmul, Re, Im; cbn [fst snd]; ring|]. rewrite X. reflexivity.
Qed.
Lemma den_nz : Csub C1 (Cmul (G0 e) L) <> C0.
Proof. apply level; [exact G0_neg|apply fraction]. Qed.

Lemma ma_regular : nonsingular (mkCoo (NN s) (NN s) (triplets e s)).
Proof.
  destruct S1 as [M1|T0].
  - apply (regular_iff m ae G ord P s Es e). destruct (ho_terms _ _ _ _ _ H) as [h [h' [Et [D [D' Hx]]]]]. destruct fraction as [OK [EL _]].
    refine (@one_regular R CF m ae c Om M N G H e single_site h h' (conj Et (conj D D')) Hx M1 phase0 OK _). 
    change (Csub C1 (Cmul (G0 e) (@ladder CF (Cmul (ev e c) (ev e c)) (fun n => g0 e [0] [(Om, n)]) 1 (Z.to_nat (most m N)))) <> C0). rewrite EL. exact den_nz.
  - destruct holstein_hermitian as [H1 H2]. exact (phys_regular m ae 0 ord s k w eta G P Es (or_intror T0) Heta H1 H2).
Qed.

Lemma ma_value : forall u, proper u -> solution e s u -> Cmul (Csub zk L) (u (vac m, [0])) = C1.
Proof.
  intros u Pu Su. apply (solution_iff m ae G ord P s Es e u Pu) in Su. destruct (ho_terms _ _ _ _ _ H) as [h [h' [Et [D [D' Hx]]]]]. destruct fraction as [OK [EL _]].
  pose proof (@y_closed R CF m ae c Om M N G H e single_site h h' (conj Et (conj D D')) Hx u (G0 e) Pu phase0 Su OK) as E.
  change (Cmul (Csub C1 (Cmul (G0 e) (@ladder CF (Cmul (ev e c) (ev e c)) (fun n => g0 e [0] [(Om, n)]) 1 (Z.to_nat (most m N))))) (u (vac m, [0])) = G0 e) in E. rewrite EL in E.
  pose proof G0_z as EZ. change (car CR) with C in *. 
  assert (X : Cmul (G0 e) (Csub (Cmul (Csub zk L) (u (vac m, [0]))) C1) = C0).
  { transitivity (Csub (Cmul (Csub (Cmul (G0 e) zk) (Cmul (G0 e) L)) (u (vac m, [0]))) (G0 e)); [ring|]. rewrite EZ, E. ring. }
  apply C_integral in X; [|exact (G0_nz m k w eta Heta)]. transitivity (Cadd (Csub (Cmul (Csub zk L) (u (vac m, [0]))) C1) C1); [ring|]. rewrite X. ring.
Qed.
End MA.
