(** The computed Green's function is that of the Hamiltonian on the variational
    space (C56). *)
From Coq Require Import String ZArith Reals List Bool Lia Lra Permutation Ring.
From Verif Require Import Base NdArray NdArray_proofs Config Spec Spec_ops Config_proofs Modify_proofs Legal_proofs
  Model Space Spec_space Space_proofs Count_proofs Render Render_proofs Term Equation System Spec_engine
  Term_proofs Equation_proofs System_proofs Prime_proofs Engine_proofs Order_proofs Ring Coef Spec_eom Eom_proofs
  Solvers Spec_solve Sysok_proofs Sparse_proofs Rows_proofs HModel Spec_model Cplx Physics Physics_proofs
  Toeplitz_proofs Weight_proofs Spec_spectral Energy_proofs Spectral_proofs Bounded_proofs Spec_green.
Import ListNotations.
Open Scope list_scope.
Open Scope Z_scope.

Ltac inC := match goal with |- ?a = ?b => change (@eq C a b) end.

Lemma ksum_pick : forall {A} (f : A -> CR) (l : list A) x0, NoDup l -> (forall x, In x l -> x <> x0 -> f x = C0) ->
  (In x0 l -> @ksum CR (map f l) = f x0) /\ (~ In x0 l -> @ksum CR (map f l) = C0).
Proof.
  intros A f l x0. induction l as [|y l IH]; intros N H; [split; [intros []|reflexivity]|].
  inversion N as [|? ? N1 N2]; subst. destruct (IH N2 (fun x Hx => H x (or_intror Hx))) as [I1 I2]. cbn [map]. rewrite !ksum_cons. split.
  - intros [->|I].
    + rewrite (I2 N1). change (@kadd CR) with Cadd. change (car CR) with C in *. generalize (f x0). change (car CR) with C. intros z. inC. ring.
    + rewrite (I1 I). rewrite (H y (or_introl eq_refl)) by (intros ->; contradiction). change (@kadd CR) with Cadd. generalize (f x0). change (car CR) with C. intros z. inC. ring.
  - intros I. rewrite (I2 (fun X => I (or_intror X))). rewrite (H y (or_introl eq_refl)) by (intros ->; apply I; left; reflexivity). change (@kadd CR) with Cadd. inC. ring.
Qed.

Section Green.
Variables (m : model R) (ae c : Z) (k w eta : R).
Hypothesis G : good_model m ae.
Hypothesis Hl : exact_lattice m.
Hypothesis Ht : (0 <= h_hop (m_ham m))%R.
Hypothesis Heta : (0 < eta)%R.
Let e := phys_env m k w eta.
Let ops := h_terms (m_ham m).
Let t := h_hop (m_ham m).
Hypothesis Hlat : on_lattice m c.

(** * Phases and propagators *)
Lemma ph_add : forall x y, ph e [x + y] = Cmul (ph e [x]) (ph e [y]).
Proof.
  intros x y. unfold e. cbn [phys_env ph]. unfold half_of. cbn [hd]. rewrite plus_IZR.
  replace (k * (m_lattice m * ((IZR x + IZR y) / 2)))%R with (k * (m_lattice m * (IZR x / 2)) + k * (m_lattice m * (IZR y / 2)))%R by field.
  unfold Cexpi, Cmul, Re, Im. cbn [fst snd]. rewrite cos_plus, sin_plus. f_equal; ring.
Qed.
Lemma ph_0 : ph e [0] = C1.
Proof.
  unfold e. cbn [phys_env ph]. unfold half_of. cbn [hd]. replace (k * (m_lattice m * (0 / 2)))%R with 0%R by field.
  unfold Cexpi, C1. rewrite cos_0, sin_0. reflexivity.
Qed.
Lemma ph_exp : forall s, Cexpi (- (k * m_lattice m * IZR s)) = ph e [-2 * s].
Proof. intros s. unfold e. cbn [phys_env ph]. unfold half_of. cbn [hd]. f_equal. rewrite mult_IZR. field. Qed.
Lemma ph_inv : forall x, Cmul (ph e [- x]) (ph e [x]) = C1.
Proof. intros x. rewrite <- ph_add, Z.add_opp_diag_l. apply ph_0. Qed.
Lemma ph_abs : forall x, Cabs (ph e [x]) = 1%R.
Proof.
  intros x. unfold e. cbn [phys_env ph]. unfold Cabs, Cnorm2, Cexpi, Re, Im. cbn [fst snd].
  set (y := (k * (m_lattice m * half_of [x]))%R). replace (cos y * cos y + sin y * sin y)%R with 1%R; [apply sqrt_1|].
  pose proof (sin2_cos2 y) as S. unfold Rsqr in S. lra.
Qed.

Lemma g0_resolvent : forall l (d : Z), Cadd (Cmul ((w - shift_of l)%R, eta) (g0 e [2 * d] l))
     (Cmul (RtoC t) (Cadd (g0 e [2 * (d + 1)] l) (g0 e [2 * (d - 1)] l))) = if Z.eq_dec d 0 then C1 else C0.
Proof.
  intros l d. set (om := RtoC (w - shift_of l)).
  assert (V : (0 < Im om + eta)%R) by (unfold om, RtoC, Im; cbn; lra).
  assert (E : forall d, g0 e [2 * d] l = g0_delta_omega (IZR d) om 1 eta (h_hop (m_ham m)) 1 0).
  { intros d'. unfold e. cbn [phys_env g0]. unfold half_of. cbn [hd]. rewrite mult_IZR. fold om. replace (2 * IZR d' / 2)%R with (IZR d') by field.
    destruct Hl as [-> | Ha]; [reflexivity|]. unfold g0_delta_omega. destruct (Req_EM_T (h_hop (m_ham m)) 0) as [_|N]; [reflexivity|contradiction]. }
  assert (Ez : Cadd om (Cmul (RtoC eta) Ci) = ((w - shift_of l)%R, eta)).
  { unfold om. apply Ceq; unfold Cadd, Cmul, RtoC, Ci, Re, Im; cbn; ring. }
  rewrite !E, <- Ez. exact (resolvent_ok om eta V (h_hop (m_ham m)) Ht d).
Qed.

Lemma g0_bounded : forall l, exists B, forall d, (Cabs (g0 e [2 * d]%Z l) <= B)%R.
Proof.
  intros l. set (om := RtoC (w - shift_of l)).
  assert (V : (0 < Im om + eta)%R) by (unfold om, RtoC, Im; cbn; lra).
  assert (E : forall d, g0 e [2 * d] l = g0_delta_omega (IZR d) om 1 eta (h_hop (m_ham m)) 1 0).
  { intros d'. unfold e. cbn [phys_env g0]. unfold half_of. cbn [hd]. rewrite mult_IZR. fold om. replace (2 * IZR d' / 2)%R with (IZR d') by field.
    destruct Hl as [-> | Ha]; [reflexivity|]. unfold g0_delta_omega. destruct (Req_EM_T (h_hop (m_ham m)) 0) as [_|N]; [reflexivity|contradiction]. }
  destruct (site_decay om eta V 1 (h_hop (m_ham m)) ltac:(lra)) as [r [b [Hr [Hb D]]]]. exists b. intros d. rewrite E. eapply Rle_trans; [apply D|].
  pose proof (pow_incr r 1 (Z.abs_nat d) ltac:(lra)) as P. rewrite pow1 in P. nra.
Qed.

Lemma U_bounded : forall l s, exists B, forall n, (Cabs (U (fun n => g0 e [2 * n]%Z l) s n) <= B)%R.
Proof.
  intros l s. destruct (g0_bounded l) as [b Hb]. induction s as [|[x y] s [B IH]].
  - exists 0%R. intros n. unfold U, Csum, Cabs. cbn. replace (Cnorm2 C0) with 0%R by (unfold Cnorm2, C0; cbn; ring). rewrite sqrt_0. lra.
  - exists (Cabs x * b + B)%R. intros n. unfold U in *. cbn [map Csum fold_right fst snd].
    eapply Rle_trans; [apply Cabs_triangle|]. rewrite Cabs_mul. specialize (IH n). specialize (Hb (n - y)).
    pose proof (Cabs_ge0 x). assert (Cabs x * Cabs (g0 e [2 * (n - y)]%Z l) <= Cabs x * b)%R by (apply Rmult_le_compat_l; assumption).
    unfold Csum in IH. lra.
Qed.

(** * Parities *)
Lemma halves : forall h, In h ops -> exists p q, psi1 h = 2 * p /\ phi1 h = 2 * q + c.
Proof. intros h Hh. destruct (Hlat h Hh) as [[p Hp] [q Hq]]. exists p, q. lia. Qed.

Lemma mode_is : forall (h : hterm R) p q j, psi1 h = 2 * p -> phi1 h = 2 * q + c -> mode c h j = j + q - p /\ target h j = j - p.
Proof.
  intros h p q j Hp Hq. unfold mode, target. rewrite Hp, Hq. replace (2 * q + c - 2 * p - c) with ((q - p) * 2) by lia. rewrite (Z.mul_comm 2 p), !Z.div_mul by lia. lia.
Qed.

(** * The interaction as a source *)
Section Source.
Variable u : nd * list Z -> CR.
Variable Psi : placement -> Z -> C.
Hypothesis Psi_ext : forall n n' j, (forall t x, n t x = n' t x) -> Psi n j = Psi n' j.
Hypothesis Psi_support : forall n j, ~ allowed m ae n -> Psi n j = C0.
Hypothesis Psi_jump : forall a h x, space m ae a -> In h ops -> acts_at m ae a h [x] ->
  jump e u (next a h x) (phi1 h - 2 * x) = Cmul (ph e [c]) (Psi (changed (cloud a) (ht_index h) x (sgn h)) (x + (c - phi1 h) / 2)).

Lemma not_acting : forall a h x, space m ae a -> In h ops -> ~ acts_at m ae a h [x] ->
  ht_dag h = Minus /\ occ a (ht_index h) [x] = 0 \/ ht_dag h = Plus /\ ~ allowed m ae (changed (cloud a) (ht_index h) x 1).
Proof.
  intros a h x Sa Hh N. destruct (space_unfold m ae a Sa) as [Va [NFa [_ [NT [N1 [[za [Sha _]] _]]]]]]. pose proof Va as [_ [_ [NN _]]]. unfold acts_at in N. destruct (ht_dag h) eqn:D.
  - right. split; [reflexivity|]. intros [V|[b [s [Sb E]]]].
    + specialize (V (ht_index h) x). unfold changed, cloud in V. rewrite Nat.eqb_refl, Z.eqb_refl in V. cbn [andb] in V. pose proof (NN (ht_index h) [x]). lia.
    + apply N. split; [reflexivity|]. destruct (space_unfold m ae b Sb) as [Vb [_ [_ [NTb [N1b [[zb [Shb _]] _]]]]]].
      exists b, [s]. split; [exact Vb|]. split; [|exact Sb]. unfold modified_by. rewrite Sha, Shb, NT, NTb, N1. repeat split; try reflexivity.
      intros t' y Ly. destruct y as [|y [|]]; try discriminate. cbn [addv]. specialize (E t' (y + s)). unfold changed, cloud, translated in E.
      replace (y + s - s) with y in E by lia. rewrite <- E. cbn [eqlZ andb]. rewrite andb_true_r. reflexivity.
  - left. split; [reflexivity|]. pose proof (NN (ht_index h) [x]) as P. destruct (Z.eq_dec (occ a (ht_index h) [x]) 0) as [Z0|Z0]; [exact Z0|].
    exfalso. apply N. split; [reflexivity|]. lia.
Qed.

Definition interaction (n : placement) (j : Z) : C :=
  Csum_list (map (fun h => Cmul (RtoC (ht_coupling h * factor c h n j)) (Psi (after c h n j) (target h j))) ops).

Lemma source_is : forall a j, space m ae a -> Cmul (ph e [c]) (interaction (cloud a) j) = Copp (src (srcs m ae e c u a) (- j)).
Proof.
  intros a j Sa. unfold src. rewrite (srcs_sum m ae e c u a (fun p => if Z.eq_dec (- j - snd p) 0 then fst p else C0)).
  unfold interaction, Csum_list. change (fold_right Cadd C0) with (@ksum CR). change Cmul with (@kmul CR). rewrite <- (ksum_scal (K := CR)).
  assert (NEG : forall {A} (f : A -> CR) l0, Copp (@ksum CR (map f l0)) = @ksum CR (map (fun x => @kopp CR (f x)) l0)).
  { intros A f l0. induction l0 as [|z l0 IH]; [apply Ceq; cbn; lra|]. cbn [map]. rewrite !ksum_cons, <- IH. apply Ceq; cbn; unfold Copp, Cadd, Re, Im; cbn; lra. }
  rewrite NEG. apply (ksum_ext (K := CR)). intros h Hh. destruct (halves h Hh) as [p [q [Hp Hq]]]. destruct (mode_is h p q j Hp Hq) as [EM ET].
  destruct (st_spec m ae G a h Sa Hh) as [ND ST]. set (x0 := mode c h j).
  assert (Y : forall x, (yy h x - c) / 2 = q - p - x). { intros x. unfold yy. rewrite Hp, Hq. replace (2 * q + c - 2 * p - 2 * x - c) with ((q - p - x) * 2) by lia. apply Z.div_mul. lia. }
  set (f := fun x => if Z.eq_dec (- j - (yy h x - c) / 2) 0 then src_at e u a h x else C0).
  destruct (ksum_pick f (st m ae a h) x0 ND) as [P1 P2].
  { intros x _ NE. unfold f. rewrite Y. destruct (Z.eq_dec (- j - (q - p - x)) 0) as [E|_]; [exfalso; apply NE; unfold x0; lia|reflexivity]. }
  transitivity (@kopp CR (@ksum CR (map f (st m ae a h)))); [|reflexivity].
  destruct (in_dec Z.eq_dec x0 (st m ae a h)) as [I|I].
  - rewrite (P1 I). unfold f. rewrite Y. destruct (Z.eq_dec (- j - (q - p - x0)) 0) as [_|NE]; [|exfalso; apply NE; unfold x0; lia].
    unfold src_at. apply ST in I. rewrite (Psi_jump a h x0 Sa Hh I). unfold after. fold x0.
    replace (target h j) with (x0 + (c - phi1 h) / 2) by (rewrite ET, Hq; replace (c - (2 * q + c)) with (- q * 2) by lia; rewrite Z.div_mul by lia; unfold x0; lia).
    rewrite kz_R. assert (EF : factor c h (cloud a) j = IZR (multi a h x0)) by (unfold factor, multi, cloud; fold x0; destruct (ht_dag h); reflexivity).
    rewrite EF, RtoC_mul. 
    replace (match ht_dag h with Plus => 1 | Minus => -1 end) with (sgn h) by (unfold sgn; destruct (ht_dag h); reflexivity).
    change (ev e (ht_coupling h)) with (RtoC (ht_coupling h)). change (@kmul CR) with Cmul. change (@kopp CR) with Copp.
    generalize (ph e [c]). change (car CR) with C. intros z. inC. ring.
  - rewrite (P2 I). assert (N : ~ acts_at m ae a h [x0]) by (intros A; apply I, ST; exact A).
    destruct (not_acting a h x0 Sa Hh N) as [[D O]|[D O]].
    + unfold factor. rewrite D. unfold cloud. fold x0. rewrite O. replace (ht_coupling h * 0)%R with 0%R by ring. change (RtoC 0) with C0.
      change (@kmul CR) with Cmul. change (@kopp CR) with Copp. generalize (ph e [c]). change (car CR) with C. intros z. inC. ring.
    + unfold after. rewrite D. fold x0. rewrite Psi_support by exact O. change (@kmul CR) with Cmul. change (@kopp CR) with Copp. generalize (ph e [c]). change (car CR) with C. intros z. inC. ring.
Qed.
End Source.

(** The right-hand side of the equations as a response to these sources. *)
Lemma rhs_is : forall u a l d, d = 2 * ((d - c) / 2) + c ->
  @ksum CR (map (fun h => @ksum CR (map (summand e u l a d h) (st m ae a h))) ops) = Copp (U (fun n => g0 e [2 * n] l) (srcs m ae e c u a) ((d - c) / 2)).
Proof.
  intros u a l d Pd. unfold U. rewrite (srcs_sum m ae e c u a (fun p => Cmul (fst p) (g0 e [2 * ((d - c) / 2 - snd p)] l))).
  assert (NEG : forall {A} (f : A -> CR) l0, Copp (@ksum CR (map f l0)) = @ksum CR (map (fun x => @kopp CR (f x)) l0)).
  { intros A f l0. induction l0 as [|z l0 IH]; [apply Ceq; cbn; lra|]. cbn [map]. rewrite !ksum_cons, <- IH. apply Ceq; cbn; unfold Copp, Cadd, Re, Im; cbn; lra. }
  rewrite NEG. apply (ksum_ext (K := CR)). intros h Hh. etransitivity; [|symmetry; exact (NEG _ _ _)]. apply (ksum_ext (K := CR)). intros x _. cbn [fst snd].
  unfold summand, src_at.
  replace [2 * ((d - c) / 2 - (yy h x - c) / 2)] with [psi1 h - phi1 h + 2 * x + d].
  - change (@kmul CR) with Cmul. change (@kopp CR) with Copp. inC. ring.
  - f_equal. pose proof (yy_parity m e c Hlat (phys_ph m k w eta) h x Hh) as Y. unfold yy in *. lia.
Qed.

(** * Every such functional gives a solution *)
Section Unique.
Variable Psi : placement -> Z -> C.
Hypothesis Row : greens_row m ae c k (w, eta) Psi.

Definition u_of (p : nd * list Z) : CR :=
  if total (fst p) =? 0 then Psi vacuum 0 else Cmul (ph e [c]) (Psi (cloud (fst p)) ((c - hd 0 (snd p)) / 2)).

Lemma u_of_proper : proper u_of.
Proof.
  intros a a' d Va Va' Fa Fa'. unfold u_of. cbn [fst]. rewrite (proj2 (valid_total_free a Va) Fa), (proj2 (valid_total_free a' Va') Fa'). reflexivity.
Qed.

Lemma psi_vac : forall j, Psi vacuum j = Cmul (ph e [-2 * j]) (Psi vacuum 0).
Proof. intros j. pose proof (gr_momentum _ _ _ _ _ _ Row vacuum j 0) as H. rewrite ph_exp in H. exact H. Qed.

Lemma psi_move : forall n s j, Psi (translated n s) j = Cmul (ph e [-2 * s]) (Psi n (j - s)).
Proof. intros n s j. pose proof (gr_momentum _ _ _ _ _ _ Row n s (j - s)) as H. rewrite ph_exp in H. replace (j - s + s) with j in H by lia. exact H. Qed.

Lemma psi_jump : forall a h x, space m ae a -> In h ops -> acts_at m ae a h [x] ->
  jump e u_of (next a h x) (phi1 h - 2 * x) = Cmul (ph e [c]) (Psi (changed (cloud a) (ht_index h) x (sgn h)) (x + (c - phi1 h) / 2)).
Proof.
  intros a h x Sa Hh Hx. destruct (next_spec m ae G a h x Sa Hh Hx) as [Vb [Mb [Tb _]]]. destruct (space_unfold m ae a Sa) as [Va [_ [_ [_ [N1 _]]]]].
  destruct (next a h x) as [b s]. cbn [fst snd] in *. unfold jump. cbn [fst snd]. destruct (halves h Hh) as [p [q [Hp Hq]]].
  replace ((c - phi1 h) / 2) with (- q) by (rewrite Hq; replace (c - (2 * q + c)) with (- q * 2) by lia; rewrite Z.div_mul by lia; reflexivity).
  destruct Mb as [_ [_ [_ Mb]]].
  assert (E : forall t' y, cloud b t' y = changed (cloud a) (ht_index h) x (sgn h) t' (y + s)).
  { intros t' y. unfold changed, cloud. rewrite (Mb t' [y]) by (rewrite N1; reflexivity). cbn [addv eqlZ]. rewrite andb_true_r. reflexivity. }
  destruct (Z.eqb_spec (total b) 0) as [Z0|Z0].
  - apply valid_total_free in Z0; [|exact Vb]. rewrite (gr_ext _ _ _ _ _ _ Row _ vacuum).
    + rewrite psi_vac. unfold u_of. cbn [fst]. rewrite (proj2 (valid_total_free b Vb) Z0), Z.eqb_refl.
      replace (phi1 h - 2 * x) with (c + -2 * (x + - q)) by lia. rewrite ph_add. change (@kmul CR) with Cmul. inC. ring.
    + intros t' y. specialize (E t' (y - s)). replace (y - s + s) with y in E by lia. rewrite <- E. apply Z0.
  - unfold u_of. cbn [fst snd hd]. destruct (Z.eqb_spec (total b) 0) as [Z1|_]; [contradiction|].
    replace ((c - (phi1 h - 2 * x + 2 * s)) / 2) with (x + - q - s) by (rewrite Hq; replace (c - (2 * q + c - 2 * x + 2 * s)) with ((x + - q - s) * 2) by lia; rewrite Z.div_mul by lia; reflexivity).
    rewrite (gr_ext _ _ _ _ _ _ Row (changed (cloud a) (ht_index h) x (sgn h)) (translated (cloud b) s)).
    + rewrite psi_move. change (@kmul CR) with Cmul. inC. ring.
    + intros t' y. unfold translated. rewrite E. f_equal. lia.
Qed.

Lemma psi_response : forall a l n, space m ae a -> energy_of (h_freqs (m_ham m)) a l ->
  Cmul (ph e [c]) (Psi (cloud a) (- n)) = U (fun n => g0 e [2 * n] l) (srcs m ae e c u_of a) n.
Proof.
  intros a l n Sa El. destruct (gr_bounded _ _ _ _ _ _ Row) as [B HB]. destruct (U_bounded l (srcs m ae e c u_of a)) as [B' HB'].
  set (v := fun n => U (fun n => g0 e [2 * n] l) (srcs m ae e c u_of a) n). set (f := fun n => Csub (Cmul (ph e [c]) (Psi (cloud a) (- n))) (v n)).
  assert (F0 : forall n, f n = C0).
  { apply (homogeneous_zero (w - shift_of l) eta t (B + B') f Heta).
    - intros n0. pose proof (U_src (fun n => g0 e [2 * n] l) (w - shift_of l) eta t (g0_resolvent l) (srcs m ae e c u_of a) n0) as H1. fold (v n0) in H1. fold (v (n0 + 1)) in H1. fold (v (n0 - 1)) in H1.
      pose proof (gr_cloud _ _ _ _ _ _ Row a l (- n0) Sa El) as H2. unfold on_H in H2. fold ops t in H2. fold (interaction Psi (cloud a) (- n0)) in H2.
      pose proof (source_is u_of Psi (gr_support _ _ _ _ _ _ Row) psi_jump a (- n0) Sa) as H3. rewrite Z.opp_involutive in H3.
      change (phonon_energy l) with (shift_of l) in H2. unfold f. replace (- (n0 + 1)) with (- n0 - 1) by lia. replace (- (n0 - 1)) with (- n0 + 1) by lia.
      set (P := ph e [c]) in *. set (p0 := Psi (cloud a) (- n0)) in *. set (p1 := Psi (cloud a) (- n0 + 1)) in *. set (p2 := Psi (cloud a) (- n0 - 1)) in *.
      set (I := interaction Psi (cloud a) (- n0)) in *. set (sr := src (srcs m ae e c u_of a) n0) in *.
      assert (Ez : ((w - shift_of l)%R, eta) = Csub (w, eta) (RtoC (shift_of l)) :> C) by (apply Ceq; unfold Csub, RtoC, Re, Im; cbn; ring).
      rewrite Ez in *. set (zz := (w, eta) : C) in *.
      transitivity (Csub (Cmul P (Csub (Cmul zz p0) (Csub (Csub (Cmul (RtoC (shift_of l)) p0) (Cmul (RtoC t) (Cadd p1 p2))) I)))
                         (Cadd (Cmul P I) (Cadd (Cmul (Csub zz (RtoC (shift_of l))) (v n0)) (Cmul (RtoC t) (Cadd (v (n0 + 1)) (v (n0 - 1))))))).
      + change (car CR) with C in *. ring.
      + rewrite H1, H2, H3. change (car CR) with C in *. ring.
    - intros n0. unfold f. set (x := Cmul (ph e [c]) (Psi (cloud a) (- n0))). replace (Csub x (v n0)) with (Cadd x (Copp (v n0))) by ring. eapply Rle_trans; [apply Cabs_triangle|]. unfold x. rewrite Cabs_opp, Cabs_mul, ph_abs. specialize (HB (cloud a) (- n0)). specialize (HB' n0). fold (v n0) in HB'. lra. }
  specialize (F0 n). unfold f in F0. fold (v n). set (x := Cmul (ph e [c]) (Psi (cloud a) (- n))) in *. change (@eq C x (v n)).
  transitivity (Cadd (Csub x (v n)) (v n)); [ring|]. rewrite F0. ring.
Qed.

Lemma u_of_cloud : forall a d, space m ae a -> d = 2 * ((d - c) / 2) + c -> u_of (a, [d]) = Cmul (ph e [c]) (Psi (cloud a) (- ((d - c) / 2))).
Proof.
  intros a d Sa Pd. destruct (space_unfold m ae a Sa) as [_ [_ [Ta _]]]. unfold u_of. cbn [fst snd hd]. destruct (Z.eqb_spec (total a) 0) as [Z0|_]; [lia|].
  do 2 f_equal. rewrite Pd at 1. replace (c - (2 * ((d - c) / 2) + c)) with (- ((d - c) / 2) * 2) by lia. rewrite Z.div_mul by lia. reflexivity.
Qed.

Lemma u_of_vacuum : kadd (u_of (vac m, [0])) (ksum (map (gsummand e u_of (m_ntypes m)) (filter creation ops))) = G0 e.
Proof.
  pose proof (gr_vacuum _ _ _ _ _ _ Row 0) as H. rewrite ph_exp in H. unfold on_H in H. fold ops t in H. fold (interaction Psi vacuum 0) in H.
  change (ph e [-2 * 0]) with (ph e [0]) in H. rewrite ph_0 in H. change (0 + 1) with 1 in H. change (0 - 1) with (-1) in H. rewrite (psi_vac 1), (psi_vac (-1)) in H.
  destruct (vac_valid m) as [Vv [T0 _]]. assert (E0 : u_of (vac m, [0]) = Psi vacuum 0) by (unfold u_of; cbn [fst]; rewrite T0; reflexivity). rewrite E0.
  assert (EG : ksum (map (gsummand e u_of (m_ntypes m)) (filter creation ops)) = Cmul (G0 e) (interaction Psi vacuum 0)).
  { unfold interaction, Csum_list. change (fold_right Cadd C0) with (@ksum CR). change Cmul with (@kmul CR). rewrite <- (ksum_scal (K := CR)).
    assert (FO : forall o, (forall h, In h o -> In h ops) -> @ksum CR (map (gsummand e u_of (m_ntypes m)) (filter creation o)) =
      @ksum CR (map (fun h => @kmul CR (G0 e) (Cmul (RtoC (ht_coupling h * factor c h vacuum 0)) (Psi (after c h vacuum 0) (target h 0)))) o)).
    { induction o as [|h o IH]; intros Ho; [reflexivity|]. cbn [filter map]. rewrite ksum_cons, <- IH by (intros; apply Ho; right; assumption).
      pose proof (Ho h (or_introl eq_refl)) as Hh. destruct (halves h Hh) as [p [q [Hp Hq]]]. destruct (mode_is h p q 0 Hp Hq) as [EM ET].
      unfold creation at 1. unfold factor, after. destruct (ht_dag h) eqn:D.
      - cbn [map]. rewrite ksum_cons. f_equal. unfold gsummand. pose proof (gm_index _ _ G h Hh) as Hi. destruct (single_in_space m ae G _ Hi) as [S1 T1].
        rewrite (u_of_cloud _ (phi1 h) S1) by (rewrite Hq; replace (2 * q + c - c) with (q * 2) by lia; rewrite Z.div_mul by lia; lia).
        replace ((phi1 h - c) / 2) with q by (rewrite Hq; replace (2 * q + c - c) with (q * 2) by lia; rewrite Z.div_mul by lia; reflexivity).
        rewrite (gr_ext _ _ _ _ _ _ Row (changed vacuum (ht_index h) (mode c h 0) 1) (translated (cloud (single_phonon (m_ntypes m) 1 (ht_index h))) (mode c h 0))).
        + rewrite psi_move. rewrite EM, ET. replace (0 - p - (0 + q - p)) with (- q) by lia. rewrite Rmult_1_r, Hp, Hq.
          replace (2 * p - (2 * q + c)) with (-2 * (0 + q - p) + - c) by lia. rewrite ph_add. change (@kz CR 1) with (Cadd C1 C0).
          change (ev e (ht_coupling h)) with (RtoC (ht_coupling h)). change (@kmul CR) with Cmul. pose proof (ph_inv c) as PI.
          set (x := ph e [-2 * (0 + q - p)]). set (y := ph e [- c]) in *. set (z := ph e [c]) in *. set (g := G0 e). set (P := Psi _ (- q)).
          change (car CR) with C in *. transitivity (Cmul (Cmul y z) (Cmul (RtoC (ht_coupling h)) (Cmul (Cmul g x) P))); [inC; ring|]. rewrite PI. inC. ring.
        + intros t' y. unfold changed, vacuum, translated, cloud. rewrite single_phonon_occ by (try exact Hi; reflexivity). cbn [zerov repeat eqlZ]. rewrite andb_true_r.
          replace (y - mode c h 0 =? 0) with (y =? mode c h 0); [destruct (_ && _); reflexivity|]. destruct (Z.eqb_spec y (mode c h 0)), (Z.eqb_spec (y - mode c h 0) 0); try reflexivity; lia.
      - unfold vacuum at 1. replace (ht_coupling h * 0)%R with 0%R by ring. change (RtoC 0) with C0. change (@kmul CR) with Cmul. change (@kadd CR) with Cadd.
        generalize (@ksum CR (map (gsummand e u_of (m_ntypes m)) (filter creation o))) (G0 e). change (car CR) with C. intros z1 z2. inC. ring. }
    apply FO. auto. }
  rewrite EG. pose proof (phys_G0 m k w eta Heta) as HG. fold e t in HG. set (x := Psi vacuum 0) in *. set (I := interaction Psi vacuum 0) in *.
  assert (Ez : ((w + 2 * t * cos (k * m_lattice m))%R, eta) = Cadd (w, eta) (Cmul (RtoC t) (Cadd (ph e [-2 * 1]) (ph e [-2 * -1]))) :> C).
  { rewrite <- !ph_exp. unfold Cexpi. replace (- (k * m_lattice m * IZR 1))%R with (- (k * m_lattice m))%R by ring. replace (- (k * m_lattice m * -1))%R with (k * m_lattice m)%R by ring.
    rewrite cos_neg, sin_neg. apply Ceq; unfold Cadd, Cmul, RtoC, Re, Im; cbn [fst snd]; ring. }
  rewrite Ez in HG. change (@kadd CR) with Cadd. set (g := G0 e) in *. change (RtoC 0) with C0 in H. set (zz := (w, eta) : C) in *. set (y1 := ph e [-2 * 1]) in *. set (y2 := ph e [-2 * -1]) in *.
  change (@eq C (Cadd x (Cmul g I)) g). change (car CR) with C in *.
  transitivity (Cadd (Cmul (Csub C1 (Cmul g (Cadd zz (Cmul (RtoC t) (Cadd y1 y2))))) x) (Cmul g (Csub (Cmul zz x) (Csub (Csub (Cmul C0 x) (Cmul (RtoC t) (Cadd (Cmul y1 x) (Cmul y2 x)))) I)))); [ring|].
  rewrite HG, H. ring.
Qed.

Lemma u_of_conditions : conditions m ae e u_of (G0 e).
Proof.
  split; [|exact u_of_vacuum]. intros a d l Sa Rd El. pose proof (reached_parity m ae e c Hlat (phys_ph m k w eta) a d Rd) as Pd.
  fold ops. rewrite (rhs_is u_of a l d Pd), (u_of_cloud a d Sa Pd), (psi_response a l _ Sa El). change (@kadd CR) with Cadd. change (@k0 CR) with C0. inC. ring.
Qed.
End Unique.

(** * Every solution gives such a functional *)
Section Existence.
Variable u : nd * list Z -> CR.
Hypothesis Pu : proper u.
Hypothesis Cn : conditions m ae e u (G0 e).
Let response (a : nd) (l : list (R * Z)) (n : Z) : C := U (fun n => g0 e [2 * n] l) (srcs m ae e c u a) n.

Definition value (p : placement * Z) (z : C) : Prop :=
  let (n, j) := p in
  (forall t x, n t x = 0) /\ z = Cmul (ph e [-2 * j]) (u (vac m, [0])) \/
  exists a s l, space m ae a /\ energy_of (h_freqs (m_ham m)) a l /\ (forall t x, n t x = translated (cloud a) s t x) /\
    z = Cmul (Cmul (ph e [-2 * s]) (ph e [- c])) (response a l (s - j)).

Lemma same_cloud : forall a a' s s', space m ae a -> space m ae a' -> (forall t x, translated (cloud a) s t x = translated (cloud a') s' t x) -> a' = a /\ s' = s.
Proof.
  intros a a' s s' Sa Sa' E. destruct (space_unfold m ae a Sa) as [Va [NF [_ [NT [N1 [[za [Sh _]] _]]]]]].
  destruct (space_unfold m ae a' Sa') as [Va' [NF' [_ [NT' [N1' [[za' [Sh' _]] _]]]]]].
  destruct (modified_unique a a a' [0] [s' - s] 0 [0] 0 Va Va Va' NF NF') as [E1 E2].
  - unfold modified_by. rewrite N1. repeat split; try reflexivity. intros t0 y Ly. destruct y as [|y [|]]; try discriminate. cbn [addv]. rewrite Z.add_0_r. destruct (_ && _); lia.
  - unfold modified_by. rewrite Sh, Sh', NT, NT', N1. repeat split; try reflexivity. intros t0 y Ly. destruct y as [|y [|]]; try discriminate. cbn [addv].
    specialize (E t0 (y + s')). unfold translated, cloud in E. replace (y + s' - s') with y in E by lia. replace (y + s' - s) with (y + (s' - s)) in E by lia. rewrite <- E. destruct (_ && _); lia.
  - split; [exact E1|]. assert (s' - s = 0) by congruence. lia.
Qed.

Lemma cloud_nonzero : forall a s n, space m ae a -> (forall t x, n t x = translated (cloud a) s t x) -> ~ (forall t x, n t x = 0).
Proof.
  intros a s n Sa E Z0. destruct (space_unfold m ae a Sa) as [Va [NF [_ [_ [N1 _]]]]]. destruct Va as [_ [Rk [_ [F|Ti]]]]; [contradiction|].
  destruct (Ti 0%nat ltac:(rewrite N1; lia)) as [[t0 [x [Lx [_ P]]]] _]. rewrite N1 in Lx. destruct x as [|x [|]]; try discriminate.
  specialize (E t0 (x + s)). rewrite Z0 in E. unfold translated, cloud in E. replace (x + s - s) with x in E by lia. lia.
Qed.

Lemma value_unique : forall p z z', value p z -> value p z' -> z = z'.
Proof.
  intros [n j] z z' [[Z0 ->]|[a [s [l [Sa [El [E ->]]]]]]] [[Z0' ->]|[a' [s' [l' [Sa' [El' [E' ->]]]]]]]; try reflexivity.
  - exfalso. exact (cloud_nonzero a' s' n Sa' E' Z0).
  - exfalso. exact (cloud_nonzero a s n Sa E Z0').
  - destruct (same_cloud a a' s s' Sa Sa') as [-> ->]; [intros; rewrite <- E, <- E'; reflexivity|]. rewrite (energy_unique _ _ _ _ El El'). reflexivity.
Qed.

Lemma value_bounded : exists B, forall p z, value p z -> (Cabs z <= B)%R.
Proof.
  destruct (clouds_from m ae 1 G ltac:(lia)) as [cl [_ Hcl]].
  assert (BC : exists B, (0 <= B)%R /\ forall a l n, In a cl -> energy_of (h_freqs (m_ham m)) a l -> (Cabs (response a l n) <= B)%R).
  { assert (SP : forall a, In a cl -> space m ae a) by (intros a Ha; apply Hcl; exact Ha). clear Hcl. induction cl as [|a cl IH].
    - exists 0%R. split; [lra|]. intros a l n [].
    - destruct IH as [B [B0 HB]]; [intros; apply SP; right; assumption|]. pose proof (SP a (or_introl eq_refl)) as Sa. destruct (space_unfold m ae a Sa) as [_ [_ [_ [NT _]]]].
      destruct (energy_ex (h_freqs (m_ham m)) a) as [l El]; [rewrite NT; apply (gm_freqs _ _ G)|]. destruct (U_bounded l (srcs m ae e c u a)) as [B' HB'].
      exists (B + Rabs B')%R. split; [pose proof (Rabs_pos B'); lra|]. intros a' l' n [<-|Ha'] El'.
      + rewrite (energy_unique _ _ _ _ El' El). specialize (HB' n). pose proof (Rle_abs B'). unfold response. lra.
      + specialize (HB a' l' n Ha' El'). pose proof (Rabs_pos B'). lra. }
  destruct BC as [B [B0 HB]]. exists (B + Cabs (u (vac m, [0%Z])))%R. intros [n j] z [[_ ->]|[a [s [l [Sa [El [_ ->]]]]]]].
  - rewrite Cabs_mul, ph_abs. lra.
  - rewrite !Cabs_mul, !ph_abs. destruct (space_unfold m ae a Sa) as [_ [_ [Ta _]]]. assert (T1 : 1 <= total a) by lia. specialize (HB a l (s - j) (proj2 (Hcl a) (conj Sa T1)) El). pose proof (Cabs_ge0 (u (vac m, [0%Z]))). lra.
Qed.

Lemma value_allowed : forall n j, allowed m ae n -> exists z, value (n, j) z.
Proof.
  intros n j [Z0|[a [s [Sa E]]]]; [eexists; left; split; [exact Z0|reflexivity]|]. destruct (space_unfold m ae a Sa) as [_ [_ [_ [NT _]]]].
  destruct (energy_ex (h_freqs (m_ham m)) a) as [l El]; [rewrite NT; apply (gm_freqs _ _ G)|].
  eexists. right. exists a, s, l. split; [exact Sa|]. split; [exact El|]. split; [exact E|reflexivity].
Qed.

Section Row.
Variable f : placement * Z -> C.
Hypothesis F1 : forall p z, value p z -> f p = z.
Hypothesis F2 : forall p, ~ (exists z, value p z) -> f p = C0.
Let Psi (n : placement) (j : Z) : C := f (n, j).

Lemma psi_support : forall n j, ~ allowed m ae n -> Psi n j = C0.
Proof.
  intros n j N. apply F2. intros [z [[Z0 _]|[a [s [l [Sa [_ [E _]]]]]]]]; apply N; [left; exact Z0|right; exists a, s; auto].
Qed.

Lemma value_ext : forall (n n' : placement) j z, (forall t x, n t x = n' t x) -> value (n, j) z -> value (n', j) z.
Proof.
  intros n n' j z E [[Z0 ->]|[a [s [l [Sa [El [E' ->]]]]]]]; [left; split; [intros; rewrite <- E; apply Z0|reflexivity]|].
  right. exists a, s, l. split; [exact Sa|]. split; [exact El|]. split; [intros; rewrite <- E; apply E'|reflexivity].
Qed.

Lemma psi_ext : forall (n n' : placement) j, (forall t x, n t x = n' t x) -> Psi n j = Psi n' j.
Proof.
  intros n n' j E. apply (cases_C (exists z, value (n, j) z)).
  - intros [z Hz]. unfold Psi. rewrite (F1 _ z Hz), (F1 _ z (value_ext n n' j z E Hz)). reflexivity.
  - intros N. unfold Psi. rewrite (F2 _ N), F2; [reflexivity|]. intros [z Hz]. apply N. exists z. apply (value_ext n' n); [intros; symmetry; apply E|exact Hz].
Qed.

Lemma value_move : forall n s j z, value (n, j) z -> value (translated n s, j + s) (Cmul (ph e [-2 * s]) z).
Proof.
  intros n s j z [[Z0 ->]|[a [s0 [l [Sa [El [E ->]]]]]]].
  - left. split; [intros; apply Z0|]. replace (-2 * (j + s)) with (-2 * s + -2 * j) by lia. rewrite ph_add. generalize (u (vac m, [0])). change (car CR) with C. intros g. ring.
  - right. exists a, (s0 + s), l. split; [exact Sa|]. split; [exact El|]. split.
    + intros t0 x. unfold translated. rewrite E. unfold translated. f_equal. lia.
    + replace (-2 * (s0 + s)) with (-2 * s + -2 * s0) by lia. rewrite ph_add. replace (s0 + s - (j + s)) with (s0 - j) by lia. ring.
Qed.

Lemma psi_momentum : forall n s j, Psi (translated n s) (j + s) = Cmul (Cexpi (- (k * m_lattice m * IZR s))) (Psi n j).
Proof.
  intros n s j. rewrite ph_exp. apply (cases_C (exists z, value (n, j) z)).
  - intros [z Hz]. unfold Psi. rewrite (F1 _ z Hz), (F1 _ _ (value_move n s j z Hz)). reflexivity.
  - intros N. unfold Psi. rewrite (F2 _ N), F2; [ring|]. intros [z Hz]. apply N. pose proof (value_move _ (- s) _ _ Hz) as H. replace (j + s + - s) with j in H by lia.
    eexists. eapply value_ext; [|exact H]. intros t0 x. unfold translated. f_equal. lia.
Qed.

Lemma psi_bounded : exists B, forall n j, (Cabs (Psi n j) <= B)%R.
Proof.
  destruct value_bounded as [B HB]. exists (Rabs B). intros n j. apply (cases_le (exists z, value (n, j) z)).
  - intros [z Hz]. unfold Psi. rewrite (F1 _ z Hz). eapply Rle_trans; [exact (HB _ _ Hz)|apply Rle_abs].
  - intros N. unfold Psi. rewrite (F2 _ N). replace (Cabs C0) with 0%R; [apply Rabs_pos|]. unfold Cabs. replace (Cnorm2 C0) with 0%R by (unfold Cnorm2, C0; cbn; ring). rewrite sqrt_0. reflexivity.
Qed.

Lemma psi_cloud : forall a l s (n : placement) j, space m ae a -> energy_of (h_freqs (m_ham m)) a l -> (forall t x, n t x = translated (cloud a) s t x) ->
  Psi n j = Cmul (Cmul (ph e [-2 * s]) (ph e [- c])) (response a l (s - j)).
Proof. intros a l s n j Sa El E. apply F1. right. exists a, s, l. auto. Qed.

Lemma psi_free : forall (n : placement) j, (forall t x, n t x = 0) -> Psi n j = Cmul (ph e [-2 * j]) (u (vac m, [0])).
Proof. intros n j Z0. apply F1. left. auto. Qed.

Lemma rows_from : forall a d l, space m ae a -> 1 <= total a -> reached m ae a d -> energy_of (h_freqs (m_ham m)) a l ->
  kadd (u (a, [d])) (ksum (map (fun h => ksum (map (summand e u l a d h) (st m ae a h))) ops)) = k0.
Proof. intros a d l Sa _ Rd El. exact (proj1 Cn a d l Sa Rd El). Qed.

Lemma value_is : forall a l d, space m ae a -> energy_of (h_freqs (m_ham m)) a l -> reached m ae a d -> u (a, [d]) = response a l ((d - c) / 2).
Proof.
  intros a l d Sa El Rd. destruct (space_unfold m ae a Sa) as [_ [_ [Ta _]]].
  exact (u_is m ae e eta c Hlat (phys_ph m k w eta) (phys_g0 m k w eta Hl Heta) u 1 rows_from a l d Sa ltac:(lia) El Rd).
Qed.

Lemma jump_is : forall a h x, space m ae a -> In h ops -> acts_at m ae a h [x] ->
  jump e u (next a h x) (phi1 h - 2 * x) = Cmul (ph e [c]) (Psi (changed (cloud a) (ht_index h) x (sgn h)) (x + (c - phi1 h) / 2)).
Proof.
  intros a h x Sa Hh Hx. destruct (next_spec m ae G a h x Sa Hh Hx) as [Vb [Mb [Tb Sb]]]. destruct (space_unfold m ae a Sa) as [Va [_ [_ [_ [N1 _]]]]].
  destruct (next a h x) as [b s]. cbn [fst snd] in *. unfold jump. cbn [fst snd]. destruct (halves h Hh) as [p [q [Hp Hq]]].
  replace ((c - phi1 h) / 2) with (- q) by (rewrite Hq; replace (c - (2 * q + c)) with (- q * 2) by lia; rewrite Z.div_mul by lia; reflexivity).
  pose proof Mb as Mb0. destruct Mb as [_ [_ [_ Mb]]].
  assert (E : forall t' y, cloud b t' y = changed (cloud a) (ht_index h) x (sgn h) t' (y + s)).
  { intros t' y. unfold changed, cloud. rewrite (Mb t' [y]) by (rewrite N1; reflexivity). cbn [addv eqlZ]. rewrite andb_true_r. reflexivity. }
  destruct (Z.eqb_spec (total b) 0) as [Z0|Z0].
  - apply valid_total_free in Z0; [|exact Vb]. rewrite psi_free.
    + destruct (vac_valid m) as [Vv [T0 _]]. rewrite (Pu b (vac m) [0] Vb Vv Z0) by (apply valid_total_free; assumption).
      replace (phi1 h - 2 * x) with (c + -2 * (x + - q)) by lia. rewrite ph_add. change (@kmul CR) with Cmul. generalize (u (vac m, [0])). change (car CR) with C. intros g. inC. ring.
    + intros t' y. specialize (E t' (y - s)). replace (y - s + s) with y in E by lia. rewrite <- E. apply Z0.
  - destruct Sb as [F|Sb]; [exfalso; apply Z0, valid_total_free; assumption|]. destruct (space_unfold m ae b Sb) as [_ [_ [_ [NT _]]]].
    destruct (energy_ex (h_freqs (m_ham m)) b) as [l El]; [rewrite NT; apply (gm_freqs _ _ G)|].
    assert (Rd : reached m ae b (phi1 h - 2 * x + 2 * s)) by (right; exists a, h, x, s; repeat (split; [assumption|]); reflexivity).
    rewrite (value_is b l _ Sb El Rd). rewrite (psi_cloud b l s _ _ Sb El).
    + replace ((phi1 h - 2 * x + 2 * s - c) / 2) with (s - (x + - q)) by (rewrite Hq; replace (2 * q + c - 2 * x + 2 * s - c) with ((s - (x + - q)) * 2) by lia; rewrite Z.div_mul by lia; reflexivity).
      pose proof (ph_inv c) as PI. change (@kmul CR) with Cmul. set (y := ph e [- c]) in *. set (z := ph e [c]) in *. set (v := ph e [-2 * s]). set (r := response b l _).
      change (@eq C (Cmul v r) (Cmul z (Cmul (Cmul v y) r))). change (car CR) with C in *. transitivity (Cmul (Cmul y z) (Cmul v r)); [rewrite PI; ring|ring].
    + intros t' y. unfold translated. rewrite E. f_equal. lia.
Qed.

Lemma psi_row : greens_row m ae c k (w, eta) Psi.
Proof.
  constructor.
  - exact psi_ext.
  - exact psi_support.
  - exact psi_bounded.
  - exact psi_momentum.
  - intros a l j Sa El. unfold on_H. fold ops t. fold (interaction Psi (cloud a) j).
    pose proof (source_is u Psi psi_support jump_is a j Sa) as H3.
    pose proof (U_src (fun n => g0 e [2 * n] l) (w - shift_of l) eta t (g0_resolvent l) (srcs m ae e c u a) (- j)) as H1.
    fold (response a l (- j)) in H1. fold (response a l (- j + 1)) in H1. fold (response a l (- j - 1)) in H1.
    assert (E0 : forall t x, cloud a t x = translated (cloud a) 0 t x) by (intros; unfold translated; rewrite Z.sub_0_r; reflexivity).
    rewrite !(psi_cloud a l 0 (cloud a) _ Sa El E0). change (-2 * 0) with 0. rewrite ph_0.
    replace (0 - j) with (- j) by lia. replace (0 - (j + 1)) with (- j - 1) by lia. replace (0 - (j - 1)) with (- j + 1) by lia.
    change (phonon_energy l) with (shift_of l). pose proof (ph_inv c) as PI.
    set (P := ph e [c]) in *. set (Q := ph e [- c]) in *. set (v0 := response a l (- j)) in *. set (v1 := response a l (- j - 1)) in *. set (v2 := response a l (- j + 1)) in *.
    set (I := interaction Psi (cloud a) j) in *. set (sr := src (srcs m ae e c u a) (- j)) in *.
    assert (Ez : ((w - shift_of l)%R, eta) = Csub (w, eta) (RtoC (shift_of l)) :> C) by (apply Ceq; unfold Csub, RtoC, Re, Im; cbn; ring).
    rewrite Ez in H1. set (zz := (w, eta) : C) in *. change (car CR) with C in *.
    assert (EI : I = Copp (Cmul Q sr)) by (transitivity (Cmul (Cmul Q P) I); [rewrite PI; ring|]; transitivity (Cmul Q (Cmul P I)); [ring|]; rewrite H3; ring).
    rewrite EI, <- H1. ring.
  - intros j. unfold on_H. fold ops t. fold (interaction Psi vacuum j).
    assert (EV : forall i, Psi vacuum i = Cmul (ph e [-2 * i]) (u (vac m, [0]))) by (intros i; apply psi_free; reflexivity).
    rewrite !EV, ph_exp. destruct Cn as [_ C2]. fold ops in C2. pose proof (phys_G0 m k w eta Heta) as HG. fold e t in HG.
    assert (EG : ksum (map (gsummand e u (m_ntypes m)) (filter creation ops)) = Cmul (Cmul (G0 e) (ph e [2 * j])) (interaction Psi vacuum j)).
    { unfold interaction, Csum_list. change (fold_right Cadd C0) with (@ksum CR). change Cmul with (@kmul CR). rewrite <- (ksum_scal (K := CR)).
      assert (FO : forall o, (forall h, In h o -> In h ops) -> @ksum CR (map (gsummand e u (m_ntypes m)) (filter creation o)) =
        @ksum CR (map (fun h => @kmul CR (@kmul CR (G0 e) (ph e [2 * j])) (Cmul (RtoC (ht_coupling h * factor c h vacuum j)) (Psi (after c h vacuum j) (target h j)))) o)).
      { induction o as [|h o IH]; intros Ho; [reflexivity|]. cbn [filter map]. rewrite ksum_cons, <- IH by (intros; apply Ho; right; assumption).
        pose proof (Ho h (or_introl eq_refl)) as Hh. destruct (halves h Hh) as [p [q [Hp Hq]]]. destruct (mode_is h p q j Hp Hq) as [EM ET].
        unfold creation at 1. unfold factor, after. destruct (ht_dag h) eqn:D.
        - cbn [map]. rewrite ksum_cons. f_equal. unfold gsummand. pose proof (gm_index _ _ G h Hh) as Hi. destruct (single_in_space m ae G _ Hi) as [S1 T1].
          destruct (space_unfold m ae _ S1) as [_ [_ [_ [NT _]]]].
          destruct (energy_ex (h_freqs (m_ham m)) (single_phonon (m_ntypes m) 1 (ht_index h))) as [l El]; [rewrite NT; apply (gm_freqs _ _ G)|].
          rewrite (value_is _ l (phi1 h) S1 El) by (left; exists h; auto).
          replace ((phi1 h - c) / 2) with q by (rewrite Hq; replace (2 * q + c - c) with (q * 2) by lia; rewrite Z.div_mul by lia; reflexivity).
          rewrite (psi_cloud _ l (mode c h j) (changed vacuum (ht_index h) (mode c h j) 1) _ S1 El).
          + rewrite EM, ET. replace (j + q - p - (j - p)) with q by lia. rewrite Rmult_1_r, Hp, Hq.
            replace (2 * p - (2 * q + c)) with (2 * j + (-2 * (j + q - p) + - c)) by lia. rewrite !ph_add. change (@kz CR 1) with (Cadd C1 C0).
            change (ev e (ht_coupling h)) with (RtoC (ht_coupling h)). change (@kmul CR) with Cmul.
            generalize (ph e [2 * j]) (ph e [-2 * (j + q - p)]) (ph e [- c]) (G0 e) (response (single_phonon (m_ntypes m) 1 (ht_index h)) l q).
            change (car CR) with C. intros. inC. ring.
          + intros t' y. unfold changed, vacuum, translated, cloud. rewrite single_phonon_occ by (try exact Hi; reflexivity). cbn [zerov repeat eqlZ]. rewrite andb_true_r.
            replace (y - mode c h j =? 0) with (y =? mode c h j); [destruct (_ && _); reflexivity|]. destruct (Z.eqb_spec y (mode c h j)), (Z.eqb_spec (y - mode c h j) 0); try reflexivity; lia.
        - unfold vacuum at 1. replace (ht_coupling h * 0)%R with 0%R by ring. change (RtoC 0) with C0. change (@kmul CR) with Cmul. change (@kadd CR) with Cadd.
          generalize (@ksum CR (map (gsummand e u (m_ntypes m)) (filter creation o))) (G0 e) (ph e [2 * j]). change (car CR) with C. intros z1 z2 z3. inC. ring. }
      apply FO. auto. }
    rewrite EG in C2. change (@kadd CR) with Cadd in C2.
    assert (Ez : ((w + 2 * t * cos (k * m_lattice m))%R, eta) = Cadd (w, eta) (Cmul (RtoC t) (Cadd (ph e [-2 * 1]) (ph e [-2 * -1]))) :> C).
    { rewrite <- !ph_exp. unfold Cexpi. replace (- (k * m_lattice m * IZR 1))%R with (- (k * m_lattice m))%R by ring. replace (- (k * m_lattice m * -1))%R with (k * m_lattice m)%R by ring.
      rewrite cos_neg, sin_neg. apply Ceq; unfold Cadd, Cmul, RtoC, Re, Im; cbn [fst snd]; ring. }
    rewrite Ez in HG. replace (-2 * (j + 1)) with (-2 * j + -2 * 1) by lia. replace (-2 * (j - 1)) with (-2 * j + -2 * -1) by lia. rewrite !(ph_add (-2 * j)).
    change (RtoC 0) with C0. pose proof (ph_inv (2 * j)) as PI. replace (- (2 * j)) with (-2 * j) in PI by lia.
    set (x := u (vac m, [0])) in *. set (I := interaction Psi vacuum j) in *. set (g := G0 e) in *. set (zz := (w, eta) : C) in *.
    set (y1 := ph e [-2 * 1]) in *. set (y2 := ph e [-2 * -1]) in *. set (pj := ph e [-2 * j]) in *. set (qj := ph e [2 * j]) in *. change (car CR) with C in *.
    set (Z := Cadd zz (Cmul (RtoC t) (Cadd y1 y2))) in *.
    transitivity (Cadd (Cmul pj (Cmul Z x)) I); [unfold Z; ring|].
    assert (C3 : Cadd (Cmul Z x) (Cmul qj I) = C1).
    { transitivity (Cadd (Cmul Z x) (Cmul (Cmul (Cmul g Z) qj) I)); [rewrite HG; ring|]. transitivity (Cmul Z (Cadd x (Cmul (Cmul g qj) I))); [ring|].
      etransitivity; [exact (f_equal (Cmul Z) C2)|]. transitivity (Cmul g Z); [ring|exact HG]. }
    transitivity (Cmul pj (Cadd (Cmul Z x) (Cmul qj I))); [|rewrite C3; ring].
    transitivity (Cadd (Cmul pj (Cmul Z x)) (Cmul (Cmul pj qj) I)); [rewrite PI; ring|ring].
Qed.

Lemma psi_value : Psi vacuum 0 = u (vac m, [0]).
Proof. rewrite psi_free by reflexivity. change (-2 * 0) with 0. rewrite ph_0. generalize (u (vac m, [0])). change (car CR) with C. intros g. ring. Qed.
End Row.

Lemma row_exists : exists Psi, greens_row m ae c k (w, eta) Psi /\ Psi vacuum 0 = u (vac m, [0]).
Proof.
  destruct value_bounded as [B HB]. destruct (pickC value B value_unique HB) as [f [F1 F2]].
  exists (fun n j => f (n, j)). split; [exact (psi_row f F1 F2)|exact (psi_value f F1)].
Qed.
End Existence.

(** * Uniqueness *)
Hypothesis Hherm : hermitian e m.

Lemma jump_sub : forall u u' p y, jump e (fun q => Csub (u q) (u' q) : CR) p y = Csub (jump e u p y) (jump e u' p y).
Proof.
  intros u u' p y. unfold jump. destruct (total (fst p) =? 0); change (@kmul CR) with Cmul;
    [generalize (u (fst p, [0])) (u' (fst p, [0])) (ph e [y])|generalize (u (fst p, [y + 2 * snd p])) (u' (fst p, [y + 2 * snd p])) (ph e [-2 * snd p])];
    change (car CR) with C; intros; ring.
Qed.

Lemma ksum_sub : forall {A} (f g : A -> CR) l, @ksum CR (map (fun x => Csub (f x) (g x) : CR) l) = Csub (@ksum CR (map f l)) (@ksum CR (map g l)).
Proof.
  intros A f g l. induction l as [|x l IH]; [apply Ceq; unfold Csub; cbn; lra|]. cbn [map]. rewrite !ksum_cons, IH. change (@kadd CR) with Cadd.
  generalize (f x) (g x) (@ksum CR (map f l)) (@ksum CR (map g l)). change (car CR) with C. intros. inC. ring.
Qed.

Lemma solutions_agree : forall u u' gb, proper u -> proper u' -> conditions m ae e u gb -> conditions m ae e u' gb ->
  u (vac m, [0]) = u' (vac m, [0]) /\ forall a d, space m ae a -> reached m ae a d -> u (a, [d]) = u' (a, [d]).
Proof.
  intros u u' gb Pu Pu' [A1 A2] [B1 B2]. set (dd := fun q => Csub (u q) (u' q) : CR).
  assert (E0 : forall z z' : C, Csub z z' = C0 -> z = z') by (intros z z' H; transitivity (Cadd (Csub z z') z'); [ring|rewrite H; ring]).
  destruct (passive_unique m ae G e eta c Heta Hherm Hlat (phys_ph m k w eta) (phys_g0 m k w eta Hl Heta) _ (phys_G0 m k w eta Heta) dd) as [Z0 Z1].
  - intros a a' d Va Va' Fa Fa'. unfold dd. rewrite (Pu a a' d Va Va' Fa Fa'), (Pu' a a' d Va Va' Fa Fa'). reflexivity.
  - split.
    + intros a d l Sa Rd El. specialize (A1 a d l Sa Rd El). specialize (B1 a d l Sa Rd El). fold ops in A1, B1 |- *.
      assert (ES : @ksum CR (map (fun h => @ksum CR (map (summand e dd l a d h) (st m ae a h))) ops) =
        Csub (@ksum CR (map (fun h => @ksum CR (map (summand e u l a d h) (st m ae a h))) ops)) (@ksum CR (map (fun h => @ksum CR (map (summand e u' l a d h) (st m ae a h))) ops))).
      { rewrite <- ksum_sub. apply (ksum_ext (K := CR)). intros h _. rewrite <- ksum_sub. apply (ksum_ext (K := CR)). intros x _. unfold summand, dd. rewrite jump_sub.
        change (@kmul CR) with Cmul. generalize (jump e u (next a h x) (phi1 h - 2 * x)) (jump e u' (next a h x) (phi1 h - 2 * x)). change (car CR) with C. intros. inC. ring. }
      rewrite ES. unfold dd. change (@kadd CR) with Cadd in *. change (@k0 CR) with C0 in *. revert A1 B1.
      generalize (u (a, [d])) (u' (a, [d])) (@ksum CR (map (fun h => @ksum CR (map (summand e u l a d h) (st m ae a h))) ops)) (@ksum CR (map (fun h => @ksum CR (map (summand e u' l a d h) (st m ae a h))) ops)).
      change (car CR) with C. intros z1 z2 z3 z4 H1 H2. inC. transitivity (Csub (Cadd z1 z3) (Cadd z2 z4)); [ring|]. etransitivity; [exact (f_equal2 Csub H1 H2)|ring].
    + fold ops in A2, B2 |- *.
      assert (ES : @ksum CR (map (gsummand e dd (m_ntypes m)) (filter creation ops)) =
        Csub (@ksum CR (map (gsummand e u (m_ntypes m)) (filter creation ops))) (@ksum CR (map (gsummand e u' (m_ntypes m)) (filter creation ops)))).
      { rewrite <- ksum_sub. apply (ksum_ext (K := CR)). intros h _. unfold gsummand, dd. change (@kmul CR) with Cmul.
        generalize (u (single_phonon (m_ntypes m) 1 (ht_index h), [phi1 h])) (u' (single_phonon (m_ntypes m) 1 (ht_index h), [phi1 h])). change (car CR) with C. intros. inC. ring. }
      rewrite ES. unfold dd. change (@kadd CR) with Cadd in *. change (@k0 CR) with C0 in *. revert A2 B2.
      generalize (u (vac m, [0])) (u' (vac m, [0])) (@ksum CR (map (gsummand e u (m_ntypes m)) (filter creation ops))) (@ksum CR (map (gsummand e u' (m_ntypes m)) (filter creation ops))).
      change (car CR) with C. intros z1 z2 z3 z4 H1 H2. inC. transitivity (Csub (Cadd z1 z3) (Cadd z2 z4)); [ring|]. etransitivity; [exact (f_equal2 Csub H1 H2)|]. generalize gb. change (car CR) with C. intros z. ring.
  - split; [apply E0; exact Z0|]. intros a d Sa Rd. apply E0. exact (Z1 a d Sa Rd).
Qed.

Lemma row_unique : forall Psi Psi', greens_row m ae c k (w, eta) Psi -> greens_row m ae c k (w, eta) Psi' -> forall n j, Psi n j = Psi' n j.
Proof.
  intros Psi Psi' Ro Ro'. destruct (solutions_agree _ _ _ (u_of_proper Psi) (u_of_proper Psi') (u_of_conditions Psi Ro) (u_of_conditions Psi' Ro')) as [EV EC].
  assert (E0 : Psi vacuum 0 = Psi' vacuum 0).
  { destruct (vac_valid m) as [_ [T0 _]]. unfold u_of in EV. cbn [fst] in EV. rewrite T0 in EV. exact EV. }
  assert (EJ : forall a h x, space m ae a -> In h ops -> acts_at m ae a h [x] -> jump e (u_of Psi) (next a h x) (phi1 h - 2 * x) = jump e (u_of Psi') (next a h x) (phi1 h - 2 * x)).
  { intros a h x Sa Hh Hx. destruct (next_spec m ae G a h x Sa Hh Hx) as [Vb [Mb [_ Sb]]]. destruct (next a h x) as [b s]. cbn [fst snd] in *. unfold jump. cbn [fst snd].
    destruct (Z.eqb_spec (total b) 0) as [Z0|Z0].
    - f_equal. unfold u_of. cbn [fst]. rewrite Z0. exact E0.
    - f_equal. destruct Sb as [F|Sb]; [exfalso; apply Z0, valid_total_free; assumption|]. apply EC; [exact Sb|]. right. exists a, h, x, s. repeat (split; [assumption|]). reflexivity. }
  assert (ES : forall a, space m ae a -> srcs m ae e c (u_of Psi) a = srcs m ae e c (u_of Psi') a).
  { intros a Sa. unfold srcs. fold ops. assert (FM : forall o, (forall h, In h o -> In h ops) ->
      flat_map (fun h => map (fun x => (src_at e (u_of Psi) a h x, (yy h x - c) / 2)) (st m ae a h)) o = flat_map (fun h => map (fun x => (src_at e (u_of Psi') a h x, (yy h x - c) / 2)) (st m ae a h)) o).
    { induction o as [|h o IH]; intros Ho; [reflexivity|]. cbn [flat_map]. rewrite IH by (intros; apply Ho; right; assumption). f_equal. apply map_ext_in. intros x Hx.
      pose proof (Ho h (or_introl eq_refl)) as Hh. apply (st_spec m ae G a h Sa Hh) in Hx. unfold src_at. rewrite (EJ a h x Sa Hh Hx). reflexivity. }
    apply FM. auto. }
  intros n j. apply (cases_C (allowed m ae n)); [|intros N; rewrite (gr_support _ _ _ _ _ _ Ro n j N), (gr_support _ _ _ _ _ _ Ro' n j N); reflexivity].
  intros [Z0|[a [s [Sa E]]]].
  - rewrite (gr_ext _ _ _ _ _ _ Ro n vacuum j Z0), (gr_ext _ _ _ _ _ _ Ro' n vacuum j Z0), (psi_vac Psi Ro), (psi_vac Psi' Ro'), E0. reflexivity.
  - rewrite (gr_ext _ _ _ _ _ _ Ro n _ j E), (gr_ext _ _ _ _ _ _ Ro' n _ j E), (psi_move Psi Ro), (psi_move Psi' Ro'). f_equal.
    destruct (space_unfold m ae a Sa) as [_ [_ [_ [NT _]]]]. destruct (energy_ex (h_freqs (m_ham m)) a) as [l El]; [rewrite NT; apply (gm_freqs _ _ G)|].
    pose proof (psi_response Psi Ro a l (- (j - s)) Sa El) as H. pose proof (psi_response Psi' Ro' a l (- (j - s)) Sa El) as H'. rewrite Z.opp_involutive in H, H'. rewrite (ES a Sa), <- H' in H.
    pose proof (ph_inv c) as PI. set (x := Psi (cloud a) (j - s)) in *. set (x' := Psi' (cloud a) (j - s)) in *. set (y := ph e [- c]) in *. set (z := ph e [c]) in *. change (car CR) with C in *.
    transitivity (Cmul (Cmul y z) x); [rewrite PI; ring|]. transitivity (Cmul y (Cmul z x)); [ring|]. rewrite H. transitivity (Cmul (Cmul y z) x'); [ring|rewrite PI; ring].
Qed.
End Green.
