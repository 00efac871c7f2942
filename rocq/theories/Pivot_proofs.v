(** A vector annihilated by a pivot of DenseSolver extends to values of the
    unknowns that satisfy every equation from that level up (C53). *)
From Coq Require Import String ZArith Reals List Bool Lia Lra Permutation Ring.
From Verif Require Import Base NdArray NdArray_proofs Config Spec Model Space Spec_space Space_proofs Count_proofs Render Render_proofs Term Equation System Legal_proofs
  Spec_engine Prime_proofs Engine_proofs Order_proofs Ring Coef Spec_eom Solvers Spec_solve Sysok_proofs Eom_proofs Sparse_proofs Rows_proofs
  Equation_proofs HModel Cplx Toeplitz_proofs Weight_proofs Spec_spectral Energy_proofs Spectral_proofs Dense_proofs.
Import ListNotations.
Open Scope list_scope.
Open Scope Z_scope.

Section Kernel.
Context {T : Type} {F : cfield}.
Add Ring KRk : (klaws F).
Variable e : env T F.
Variable s : system T.
Hypothesis O : sys_ok s.
Variable ls : mat F -> mat F -> nat -> nat -> F.
Let N := total_bosons s.
Notation Rk := (Rk e s ls).
Notation lev := (lev s).
Notation dk := (dk s).
Variable j : Z.
Hypothesis Hj : 1 <= j < N.
Hypothesis PS : forall k X A, j < k < N -> pivot e ls s k = Ok X -> get_alpha e s k = Ok A -> msolves X A (ls X A).

(** As R_acts, with the systems above [j] solved. *)
Lemma R_acts_above : forall k x i q, j < k <= N -> nth_error (lev k) i = Some q ->
  kadd (part e s (k - 1) x q) (if k <? N then part e s (k + 1) (dmv (Rk (k + 1)) (dmv (Rk k) x)) q else k0) = dmv (Rk k) x i.
Proof.
  intros k x i q Hk Hi. destruct (Z.ltb_spec k N) as [Lt|Ge].
  - destruct (step_ok e s O ls k (Rk (k + 1)) ltac:(lia) (Rk_ok e s O ls (k + 1) ltac:(fold N; lia))) as [X [A [EX [EA [RX [CX [RA [CA [L SX]]]]]]]]].
    assert (ER : Rk k = mkMat (d_cols X) (d_cols A) (ls X A)) by (unfold Dense_proofs.Rk; rewrite (lo_R _ _ _ _ _ L); reflexivity).
    pose proof (PS k X A ltac:(lia) EX EA) as M. assert (Li : (i < d_rows X)%nat) by (rewrite RX; unfold Dense_proofs.dk; apply nth_error_Some; congruence).
    pose proof (dmv_cols X A (ls X A) x i M Li) as D. rewrite <- ER in D. rewrite (SX _ i q Hi) in D.
    destruct (alpha_ok e s O k ltac:(fold N; lia)) as [A' [EA' [_ [_ SA]]]]. assert (A' = A) by congruence. subst A'.
    rewrite (SA x i q Hi) in D. rewrite <- D. ring.
  - assert (k = N) by lia. subst k. destruct (alpha_ok e s O N ltac:(fold N; lia)) as [A [EA [RA [CA SA]]]].
    assert (ER : Rk N = A) by (unfold Dense_proofs.Rk, N; rewrite R_at_top; fold N; rewrite EA; reflexivity). rewrite ER, (SA x i q Hi). ring.
Qed.

Variable x0 : nat -> F.
Fixpoint up (n : nat) : nat -> F :=
  match n with Datatypes.O => x0 | S n' => fun i => kopp (dmv (Rk (j + Z.of_nat n)) (up n') i) end.
Definition val (k : Z) : nat -> F := if k <? j then fun _ => k0 else up (Z.to_nat (k - j)).
Definition uup (p : nd * list Z) : F :=
  val (total (fst p)) (lpos s (total (fst p)) (term_id (fst p) (Some (mkVec true (snd p))))).

Lemma val_S : forall k i, j < k -> val k i = kopp (dmv (Rk k) (val (k - 1)) i).
Proof.
  intros k i H. unfold val. rewrite (proj2 (Z.ltb_ge k j)), (proj2 (Z.ltb_ge (k - 1) j)) by lia.
  replace (Z.to_nat (k - j)) with (S (Z.to_nat (k - 1 - j))) by lia. cbn [up].
  replace (j + Z.of_nat (S (Z.to_nat (k - 1 - j)))) with k by lia. reflexivity.
Qed.

Lemma uup_proper : proper uup.
Proof.
  intros a a' d V V' P P'. unfold uup. cbn [fst snd].
  rewrite (proj2 (valid_total_free _ V) P), (proj2 (valid_total_free _ V') P'). unfold val. rewrite (proj2 (Z.ltb_lt 0 j)) by lia. reflexivity.
Qed.

Lemma uup_low : forall p, total (fst p) < j -> uup p = k0.
Proof. intros p H. unfold uup, val. rewrite (proj2 (Z.ltb_lt _ _) H). reflexivity. Qed.

Lemma uup_lev : forall k i, 0 <= k <= N -> (i < dk k)%nat -> xlev s uup k i = val k i.
Proof.
  intros k i Hk Hi. unfold xlev. destruct (nth_error (lev k) i) as [q|] eqn:E; [|apply nth_error_None in E; unfold Dense_proofs.dk in Hi; lia].
  pose proof (lev_all s O k q Hk (nth_error_In _ _ E)) as Aq.
  destruct (so_valid s O q (e_index q) Aq (or_introl eq_refl)) as [V [f Ef]].
  unfold uup, unk. rewrite Ef. cbn [fst snd].
  rewrite (proj1 (so_level s O k (lev k) q (proj1 (lev_in s O k Hk)) (nth_error_In _ _ E))).
  replace (term_id (cfg (t_cfg (e_index q))) (Some (mkVec true (v2 f)))) with (tid (e_index q)).
  - rewrite (lpos_nth s O k i q Hk E). reflexivity.
  - unfold tid. rewrite Ef. apply term_id_spec; auto.
Qed.

(** If the pivot at level [j] annihilates [x0], all equations with at least [j]
    phonons hold. *)
Lemma kernel_rows : forall X, pivot e ls s j = Ok X -> (forall i, (i < d_rows X)%nat -> dmv X x0 i = k0) ->
  forall k q, j <= k <= N -> In q (lev k) -> row e uup q = k0.
Proof.
  intros X EX HX k q Hk Hq. pose proof (lev_all s O k q ltac:(fold N; lia) Hq) as Aq. rewrite (row_split e s O _ k q uup_proper ltac:(fold N; lia) Hq). fold N.
  rewrite (proj2 (Z.ltb_lt 0 k)) by lia. apply In_nth_error in Hq. destruct Hq as [i Hi].
  assert (Li : (i < dk k)%nat) by (unfold Dense_proofs.dk; apply nth_error_Some; congruence).
  pose proof (uup_lev k i ltac:(lia) Li) as V. unfold xlev in V at 1. rewrite Hi in V. rewrite V.
  rewrite (part_ext e s O (k - 1) (xlev s uup (k - 1)) (val (k - 1)) q) by (first [fold N; lia|exact Aq|intros; apply uup_lev; [lia|assumption]]).
  destruct (Z.eq_dec k j) as [->|Nk].
  - destruct (step_ok e s O ls j (Rk (j + 1)) ltac:(fold N; lia) (Rk_ok e s O ls (j + 1) ltac:(fold N; lia))) as [X' [A [EX' [EA [RX [CX [RA [CA [L SX]]]]]]]]].
    assert (X' = X) by congruence. subst X'. assert (HXi := HX i ltac:(rewrite RX; exact Li)). rewrite (SX x0 i q Hi) in HXi.
    rewrite (proj2 (Z.ltb_lt j N)) by lia.
    rewrite (part_ext e s O (j + 1) (xlev s uup (j + 1)) (fun i => kopp (dmv (Rk (j + 1)) x0 i)) q).
    + rewrite part_opp. change (fun i0 => dmv (Rk (j + 1)) x0 i0) with (dmv (Rk (j + 1)) x0).
      assert (PZ : part e s (j - 1) (val (j - 1)) q = k0).
      { unfold part, val. rewrite (proj2 (Z.ltb_lt (j - 1) j)) by lia. apply ksum_zero. intros; ring. }
      rewrite PZ. unfold val. rewrite Z.ltb_irrefl, Z.sub_diag. cbn [Z.to_nat up]. etransitivity; [|exact HXi]. ring.
    + fold N; lia.
    + exact Aq.
    + intros l Ll. rewrite (uup_lev (j + 1) l) by (first [lia|exact Ll]). rewrite val_S by lia. replace (j + 1 - 1) with j by lia.
      f_equal. apply dmv_ext. intros l' _. unfold val. rewrite Z.ltb_irrefl, Z.sub_diag. reflexivity.
  - rewrite (val_S k i) by lia. rewrite <- (R_acts_above k (val (k - 1)) i q ltac:(lia) Hi).
    destruct (Z.ltb_spec k N) as [Lt|]; [|ring].
    rewrite (part_ext e s O (k + 1) (xlev s uup (k + 1)) (fun i => dmv (Rk (k + 1)) (dmv (Rk k) (val (k - 1))) i) q).
    + change (fun i => dmv (Rk (k + 1)) (dmv (Rk k) (val (k - 1))) i) with (dmv (Rk (k + 1)) (dmv (Rk k) (val (k - 1)))). ring.
    + fold N; lia.
    + exact Aq.
    + intros l Ll. rewrite (uup_lev (k + 1) l) by (first [lia|exact Ll]). rewrite (val_S (k + 1) l) by lia.
      rewrite <- dmv_opp. apply dmv_ext. intros l' _. replace (k + 1 - 1) with k by lia. rewrite (val_S k l') by lia. ring.
Qed.

Lemma uup_at : forall i q, nth_error (lev j) i = Some q -> uup (unk (e_index q)) = x0 i.
Proof.
  intros i q Hi. assert (Li : (i < dk j)%nat) by (unfold Dense_proofs.dk; apply nth_error_Some; congruence).
  pose proof (uup_lev j i ltac:(lia) Li) as V. unfold xlev in V. rewrite Hi in V. rewrite V. unfold val. rewrite Z.ltb_irrefl, Z.sub_diag. reflexivity.
Qed.
End Kernel.

(** At eta > 0 the pivots of a Hermitian model annihilate nothing. *)
Section Physical.
Context {T : Type}.
Variable m : model T.
Variable ae : Z.
Hypothesis G : good_model m ae.
Variable e : env T CF.
Variable eta : R.
Variable c : Z.
Hypothesis Heta : (0 < eta)%R.
Hypothesis Hherm : hermitian e m.
Hypothesis Hlat : on_lattice m c.
Hypothesis Hph : forall d, ph e [- d] = Cconj (ph e [d]).
Hypothesis Hg0 : forall l, exists w t, (forall d : Z, Cadd (Cmul (w, eta) (g0 e [2 * d] l)) (Cmul (RtoC t) (Cadd (g0 e [2 * (d + 1)] l) (g0 e [2 * (d - 1)] l)))
   = if Z.eq_dec d 0 then C1 else C0) /\ vanishes (fun d => g0 e [2 * d] l).
Variable ord : string -> list vec -> list vec.
Hypothesis ord_perm : forall k l, Permutation (ord k l) l.
Variable s : system T.
Hypothesis Es : prime_system ord m = Ok s.
Variable ls : mat CF -> mat CF -> nat -> nat -> CF.
Hypothesis LO : lsolve_ok ls.

Lemma pivot_at : forall j, 1 <= j < total_bosons s ->
  (forall k X A, j < k < total_bosons s -> pivot e ls s k = Ok X -> get_alpha e s k = Ok A -> msolves X A (ls X A)) ->
  forall X, pivot e ls s j = Ok X -> dnonsingular X.
Proof.
  intros j Hj PS X EX x Hx. destruct (sys_ok_good m ae ord s G ord_perm Es) as [O Em].
  set (u := uup e s ls j x). destruct (clouds_from m ae j G ltac:(lia)) as [cl [ND Hcl]].
  pose proof (kernel_rows e s O ls j Hj PS x X EX Hx) as KR. fold u in KR.
  assert (Pu : proper u) by (apply uup_proper; assumption).
  assert (Hr : forall a d l, space m ae a -> j <= total a -> reached m ae a d -> energy_of (h_freqs (m_ham m)) a l ->
    kadd (u (a, [d])) (ksum (map (fun h => ksum (map (summand e u l a d h) (st m ae a h))) (h_terms (m_ham m)))) = k0).
  { intros a d l Sa Ta R El. destruct (eq_exists m ae G ord ord_perm s Es a d Sa R) as [q [Hq [U Eg]]].
    destruct (eq_rows m ae G ord ord_perm s Es q Hq) as [[_ [a' [d' [l' [U' [_ [_ [El' RW]]]]]]]]|[Eg' _]]; [|congruence].
    rewrite U in U'. assert (a' = a) as -> by congruence. assert (d' = d) as -> by congruence.
    rewrite <- (energy_unique _ _ _ _ El' El), <- (RW CF e u Pu). destruct (all_lev s O q Hq) as [k [Hk Hqk]]. apply (KR k q); [|exact Hqk].
    pose proof (proj1 (so_level s O k (lev s k) q (proj1 (lev_in s O k Hk)) Hqk)) as Tk.
    destruct (so_valid s O q (e_index q) Hq (or_introl eq_refl)) as [_ [f Ef]]. unfold unk in U. rewrite Ef in U.
    assert (cfg (t_cfg (e_index q)) = a) as Ea by congruence. rewrite Ea in Tk. lia. }
  assert (UZ : forall a d, space m ae a -> j <= total a -> reached m ae a d -> u (a, [d]) = C0).
  { apply (upper_zero m ae G e eta c Heta Hherm Hlat Hph Hg0 u j ltac:(lia) cl ND Hcl Hr).
    intros h p Hh Hp. unfold outer in Hp. apply filter_In in Hp. destruct Hp as [_ Hs]. unfold stays in Hs. apply negb_true_iff, Z.leb_gt in Hs.
    unfold jump. destruct (total _ =? 0); (rewrite (uup_low e s ls j x (fst _, _)) by exact Hs); apply Ceq; cbn; unfold C0, Cmul, Re, Im; cbn; ring. }
  destruct (step_ok e s O ls j (Rk e s ls (j + 1)) Hj (Rk_ok e s O ls (j + 1) ltac:(lia))) as [X' [A [EX' [_ [RX [CX _]]]]]].
  assert (X' = X) by congruence. subst X'. intros i Hi. rewrite CX in Hi.
  destruct (nth_error (lev s j) i) as [q|] eqn:Eq; [|apply nth_error_None in Eq; unfold dk in Hi; lia].
  rewrite <- (uup_at e s O ls j Hj PS x i q Eq). fold u.
  pose proof (lev_all s O j q ltac:(lia) (nth_error_In _ _ Eq)) as Aq.
  pose proof (proj1 (so_level s O j (lev s j) q (proj1 (lev_in s O j ltac:(lia))) (nth_error_In _ _ Eq))) as Tq.
  destruct (so_valid s O q (e_index q) Aq (or_introl eq_refl)) as [_ [f Ef]].
  destruct (eq_rows m ae G ord ord_perm s Es q Aq) as [[_ [a [d [l [U [Sa [R _]]]]]]]|[_ [U _]]].
  - rewrite U. apply UZ; [exact Sa| |exact R]. unfold unk in U. rewrite Ef in U. assert (cfg (t_cfg (e_index q)) = a) as <- by congruence. lia.
  - exfalso. unfold unk in U. rewrite Ef in U. assert (cfg (t_cfg (e_index q)) = vac m) as Ea by congruence. rewrite Ea in Tq.
    destruct (vac_valid m) as [_ [T0 _]]. lia.
Qed.

Lemma pivots_regular : forall k X, 1 <= k < total_bosons s -> pivot e ls s k = Ok X -> dnonsingular X.
Proof.
  assert (A : forall n k X, Z.to_nat (total_bosons s - k) = n -> 1 <= k < total_bosons s -> pivot e ls s k = Ok X -> dnonsingular X).
  { induction n as [n IH] using (well_founded_induction Wf_nat.lt_wf). intros k X En Hk EX. apply (pivot_at k Hk); [|exact EX].
    intros k' X' A' Hk' EX' EA'. destruct (sys_ok_good m ae ord s G ord_perm Es) as [O _].
    destruct (step_ok e s O ls k' (Rk e s ls (k' + 1)) ltac:(lia) (Rk_ok e s O ls (k' + 1) ltac:(lia))) as [X1 [A1 [EX1 [EA1 [RX [CX [RA [CA _]]]]]]]].
    assert (X1 = X') by congruence. assert (A1 = A') by congruence. subst X1 A1. apply LO; [congruence|congruence|].
    apply (IH (Z.to_nat (total_bosons s - k')) ltac:(lia) k' X' eq_refl ltac:(lia) EX'). }
  intros k X Hk EX. apply (A _ k X eq_refl Hk EX).
Qed.
End Physical.
