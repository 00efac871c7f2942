(** Property theorem C54: the closed form of the computed Green's function of
    the Holstein polaron. *)
From Coq Require Import String ZArith List Bool Lia Permutation Reals Lra.
From Verif Require Import Base NdArray Config Spec Model HModel Space Spec_space Term Equation System Spec_engine Props_Engine
  Ring Coef Spec_eom Solvers Spec_solve LinSolve Spec_model Spec_sym Cplx Physics Props_Physics Props_Model Props_Solve Props_Sym Spec_spectral Props_Spectral Spec_ma.
From Verif Require Energy_proofs HModel_proofs Physics_proofs Sysok_proofs Sparse_proofs Prime_proofs Rows_proofs Spectral_proofs MA_proofs.
Import ListNotations.
Open Scope list_scope.
Open Scope Z_scope.

(** There is exactly one local Green's function, and the code's propagator on a
    site is it. *)
Theorem C54_local : forall (t w eta a : R), (0 < eta)%R ->
  local_greens t (w, eta) (g0_delta_omega 0 (RtoC w) a eta t 1 0) /\
  forall p, local_greens t (w, eta) p -> p = g0_delta_omega 0 (RtoC w) a eta t 1 0.
Proof.
  intros t w eta a He. pose proof (MA_proofs.g0_local w eta t a He) as L. split; [exact L|]. intros p Hp. exact (MA_proofs.local_unique t (w, eta) _ _ Hp L).
Qed.
Print Assumptions C54_local.

(** Clouds of one site, or no hopping: G (w + i eta + 2 t cos ka - Sigma) = 1 with
    the continued fraction Sigma of as many levels as a site can hold phonons. *)
Theorem C54_momentum_average : forall m ae c Om M N ord sp k w eta p, good_model m ae -> holstein m c Om M N ->
  M = 1 \/ h_hop (m_ham m) = 0%R -> (0 < eta)%R -> (forall k l, Permutation (ord k l) l) -> spsolve_ok sp ->
  (forall n, local_greens (h_hop (m_ham m)) ((w - IZR n * Om)%R, eta) (p n)) ->
  regular_at (phys_env m k w eta) ord m /\
  exists g : C, greens (phys_env m k w eta) sp ord m = Ok g /\
    Cmul (Csub ((w + 2 * h_hop (m_ham m) * cos (k * m_lattice m))%R, eta) (@ladder CF (RtoC (c * c)) p 1 (Z.to_nat (most m N)))) g = Cplx.C1 /\
    (Im (@ladder CF (RtoC (c * c)) p 1 (Z.to_nat (most m N)) : C) <= 0)%R.
Proof.
  intros m ae c Om M N ord sp k w eta p G H S1 He P SO Hp. destruct (primes (phys_env m k w eta) m ae ord G P) as [s [X [v [E ES]]]].
  destruct (Sysok_proofs.sys_ok_good m ae ord s G P E) as [O _].
  assert (NS : nonsingular X).
  { pose proof ES as ES'. rewrite (Sparse_proofs.scaffold_ok _ s O) in ES'.
    assert (X = mkCoo (Sparse_proofs.NN s) (Sparse_proofs.NN s) (Sparse_proofs.triplets (phys_env m k w eta) s)) as -> by congruence.
    exact (MA_proofs.ma_regular m ae c Om M N ord s k w eta G H S1 He P E p Hp). }
  split; [exists s, X, v; auto|]. destruct (scaffold_shape _ m ae ord s X v G P E ES) as [S2 S3].
  destruct (Sparse_proofs.sparse_result (phys_env m k w eta) s O sp X v ES (SO X v S2 S3 NS)) as [g [Eg [[u [Pu [Su Gu]]] _]]].
  pose proof (Sparse_proofs.g_value_unique s O u g (u (Prime_proofs.vac m, [0])) Gu (Rows_proofs.g_value_vac m ae G ord P s E u)) as EQ.
  exists g. split; [unfold greens; rewrite E; exact Eg|]. split.
  - rewrite EQ. exact (MA_proofs.ma_value m ae c Om M N ord s k w eta G H S1 He P E p Hp u Pu Su).
  - exact (proj2 (proj2 (MA_proofs.fraction m c Om N k w eta He p Hp))).
Qed.
Print Assumptions C54_momentum_average.

(** The model made by one call of add_ on a model at temperature 0. *)
Lemma holstein_call : forall hop lat mps a g logs m, a_type a = "Holstein"%string -> a_override a = None ->
  coupling_value Rnum (from_parameters hop lat 0%R mps 1) a g -> model_add Rnum (from_parameters hop lat 0%R mps 1) a = Ok (logs, m) -> ~ In LError logs ->
  m = mkModel lat 0%R (mkHam [mkHterm "Holstein" (iv 0) (iv 0) Plus (- (g * 1))%R 0 (a_freq a); mkHterm "Holstein" (iv 0) (iv 0) Minus (- (g * 1))%R 0 (a_freq a)] [a_freq a] 1 hop)
        mps [a_M a] [a_N a] None 1 /\ 1 <= a_M a /\ 1 <= a_N a.
Proof.
  intros hop lat mps a g logs m Ty Ov Cv E NE. destruct a as [ty fr M Nn Mt Nt cs dcs ov]. cbn [a_type a_override a_freq a_M a_N] in *. subst ty ov.
  unfold model_add in E. cbn [from_parameters m_temp Rnum n_ltb n_0 a_N a_M a_Mtfd a_Ntfd a_cs a_dcs a_override a_freq a_type m_ham m_ntypes m_mps m_pe m_pn m_aext m_lattice] in E.
  destruct (Rlt_dec 0 0) as [X|_]; [lra|]. cbn [andb] in E. destruct ((Nn <? 1) || (M <? 1)) eqn:B1; [injection E as <- _; exfalso; apply NE; simpl; auto|].
  apply orb_false_iff in B1. destruct B1 as [B1 B2]. apply Z.ltb_ge in B1, B2.
  destruct (lt1 Mt || lt1 Nt); [injection E as <- _; exfalso; apply NE; simpl; auto|].
  destruct (negb (xorb (is_none cs) (is_none dcs))) eqn:B3; [injection E as <- _; exfalso; apply NE; simpl; auto|].
  unfold tfd_prefactors in E. cbn [Rnum n_ltb n_0 n_1] in E. destruct (Rlt_dec 0 0) as [X|_]; [lra|].
  assert (V : match cs, dcs with Some g, None => Ok g | None, Some lam => model_coupling_map Rnum "Holstein" hop fr lam | _, _ => Err ValueError end = Ok g).
  { unfold coupling_value in Cv. cbn [a_cs a_dcs a_type a_freq from_parameters m_ham h_hop] in Cv. destruct cs as [g1|], dcs as [l1|]; try discriminate B3.
    - destruct Cv as [C|[C _]]; [injection C as ->; reflexivity|discriminate].
    - destruct Cv as [C|[_ [lam [C1 C2]]]]; [discriminate|]. injection C1 as ->. exact C2. }
  unfold ham_add in E. cbn [h_hop h_dim h_freqs h_terms] in E. rewrite V in E. cbn in E.
  split; [|split; assumption]. injection E as _ <-. reflexivity.
Qed.

Lemma holstein_good : forall hop lat mps g fr M N, 1 <= M -> 1 <= N -> (forall k, mps = Some k -> 1 <= k) ->
  good_model (mkModel lat 0%R (mkHam [mkHterm "Holstein" (iv 0) (iv 0) Plus g 0 fr; mkHterm "Holstein" (iv 0) (iv 0) Minus g 0 fr] [fr] 1 hop) mps [M] [N] None 1) M.
Proof.
  intros hop lat mps g fr M N HM HN Hk. constructor; try (simpl; lia).
  - repeat split; simpl; lia.
  - reflexivity.
  - intros [|t] H; simpl in *; lia.
  - intros [|t] H; simpl in *; lia.
  - intros h H. simpl in H. repeat (destruct H as [<-|H]; [simpl; lia|]). destruct H.
  - intros h H. simpl in H. repeat (destruct H as [<-|H]; [reflexivity|]). destruct H.
  - intros h H. simpl in H. repeat (destruct H as [<-|H]; [reflexivity|]). destruct H.
  - intros [|t] H; [|simpl in H; lia]. eexists. split; [left; reflexivity|split; reflexivity].
  - eexists. split; [right; left; reflexivity|reflexivity].
  - intros h h' H H' X. simpl in H'. repeat (destruct H' as [<-|H']; [discriminate X|]). destruct H'.
Qed.

Theorem C54_histories : forall hop lat mps a g logs m ord sp k w eta p, a_type a = "Holstein"%string -> a_override a = None ->
  coupling_value Rnum (from_parameters hop lat 0%R mps 1) a g -> model_add Rnum (from_parameters hop lat 0%R mps 1) a = Ok (logs, m) -> ~ In LError logs ->
  (forall k, mps = Some k -> 1 <= k) -> a_M a = 1 \/ hop = 0%R -> (0 < eta)%R -> (forall k l, Permutation (ord k l) l) -> spsolve_ok sp ->
  (forall n, local_greens hop ((w - IZR n * a_freq a)%R, eta) (p n)) ->
  exists G : C, greens (phys_env m k w eta) sp ord m = Ok G /\
    Cmul (Csub ((w + 2 * hop * cos (k * lat))%R, eta)
      (@ladder CF (RtoC (g * g)) p 1 (Z.to_nat (match mps with Some n => Z.min (a_N a) n | None => a_N a end)))) G = Cplx.C1.
Proof.
  intros hop lat mps a g logs m ord sp k w eta p Ty Ov Cv E NE Hk S1 He P SO Hp.
  destruct (holstein_call hop lat mps a g logs m Ty Ov Cv E NE) as [-> [HM HN]]. clear E.
  pose proof (holstein_good hop lat mps (- (g * 1))%R (a_freq a) (a_M a) (a_N a) HM HN Hk) as G0. set (m := mkModel lat 0%R _ _ _ _ _ _) in *.
  assert (H : holstein m (- (g * 1))%R (a_freq a) (a_M a) (a_N a)).
  { constructor; try reflexivity. eexists. eexists. split; [reflexivity|]. split; [reflexivity|]. split; [reflexivity|]. intros x [-> | ->]; repeat split; reflexivity. }
  destruct (C54_momentum_average m _ _ _ _ _ ord sp k w eta p G0 H S1 He P SO Hp) as [_ [G [EG [EV _]]]]. exists G. split; [exact EG|].
  replace (- (g * 1) * - (g * 1))%R with (g * g)%R in EV by ring. exact EV.
Qed.
Print Assumptions C54_histories.

(** Without hopping the size of the clouds does not matter. *)
Theorem C54_atomic : forall lat mps fr M M' N g ord sp k w eta logs logs' m m' , (forall k, mps = Some k -> 1 <= k) ->
  model_add Rnum (from_parameters 0%R lat 0%R mps 1) (mkAdd "Holstein" fr M N None None (Some g) None None) = Ok (logs, m) -> ~ In LError logs ->
  model_add Rnum (from_parameters 0%R lat 0%R mps 1) (mkAdd "Holstein" fr M' N None None (Some g) None None) = Ok (logs', m') -> ~ In LError logs' ->
  (0 < eta)%R -> (forall k l, Permutation (ord k l) l) -> spsolve_ok sp ->
  exists G : C, greens (phys_env m k w eta) sp ord m = Ok G /\ greens (phys_env m' k w eta) sp ord m' = Ok G.
Proof.
  intros lat mps fr M M' N g ord sp k w eta logs logs' m m' Hk E NE E' NE' He P SO.
  assert (Hp : forall n, local_greens 0 ((w - IZR n * fr)%R, eta) (g0_delta_omega 0 (RtoC (w - IZR n * fr)) 1 eta 0 1 0)) by (intros n; apply C54_local; exact He).
  destruct (C54_histories 0%R lat mps (mkAdd "Holstein" fr M N None None (Some g) None None) g logs m ord sp k w eta _ eq_refl eq_refl (or_introl eq_refl) E NE Hk (or_intror eq_refl) He P SO Hp) as [G [E1 V1]].
  destruct (C54_histories 0%R lat mps (mkAdd "Holstein" fr M' N None None (Some g) None None) g logs' m' ord sp k w eta _ eq_refl eq_refl (or_introl eq_refl) E' NE' Hk (or_intror eq_refl) He P SO Hp) as [G' [E2 V2]].
  exists G. split; [exact E1|]. rewrite E2. f_equal. cbn [a_N] in *. set (D := Csub _ _) in *.
  change (@eq C G' G). transitivity (Cmul (Cmul D G) G'); [rewrite V1; ring|]. transitivity (Cmul (Cmul D G') G); [ring|]. rewrite V2. ring.
Qed.
Print Assumptions C54_atomic.

(** One site, at most two of three phonons on it: two levels. *)
Definition ma_args : add_args R := mkAdd "Holstein" 2%R 1 3 None None (Some 3%R) None None.
Example C54_nonvacuous : exists m, model_add Rnum (from_parameters 1%R 1%R 0%R (Some 2) 1) ma_args = Ok ([LDebug], m) /\ ~ In LError [LDebug] /\
  h_hop (m_ham m) <> 0%R /\ good_model m 1 /\ holstein m (- (3 * 1))%R 2%R 1 3 /\ most m 3 = 2 /\
  forall p : Z -> C, @ladder CF (RtoC 9) p 1 2 =
    Cmul (Cmul (Cmul (RtoC 1) (RtoC 9)) (p 1)) (Cinv (Csub Cplx.C1 (Cmul (p 1) (Cmul (Cmul (Cmul (RtoC 2) (RtoC 9)) (p 2)) (Cinv (Csub Cplx.C1 (Cmul (p 2) Cplx.C0))))))).
Proof.
  eexists. split.
  - unfold model_add, ma_args. cbn [from_parameters m_temp Rnum n_ltb n_0]. destruct (Rlt_dec 0 0) as [H|H]; [lra|]. cbn [andb a_N a_M a_Mtfd a_Ntfd a_cs a_dcs a_override is_none lt1 orb xorb negb].
    change (3 <? 1) with false. change (1 <? 1) with false. cbn [orb]. rewrite andb_false_r. unfold tfd_prefactors. cbn [Rnum n_ltb n_0]. destruct (Rlt_dec 0 0) as [H'|_]; [lra|]. reflexivity.
  - split; [intros [X|[]]; discriminate X|]. split; [cbn; lra|]. split; [apply (holstein_good 1 1 (Some 2) (- (3 * 1)) 2 1 3); try lia; intros k X; injection X as <-; lia|].
    split; [|split; [reflexivity|]].
    + constructor; try reflexivity. eexists. eexists. split; [reflexivity|]. split; [reflexivity|]. split; [reflexivity|]. intros x [-> | ->]; repeat split; reflexivity.
    + intros p. cbn [ladder]. replace (@kz CF 1) with (RtoC 1) by (symmetry; exact (Energy_proofs.kz_R 1)). replace (@kz CF (1 + 1)) with (RtoC 2) by (symmetry; exact (Energy_proofs.kz_R 2)). reflexivity.
Qed.
